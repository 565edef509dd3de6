(** Theorems about the boundary layer schemes: C46, C47, C64 and the Held-Suarez forcing. *)
From Verif Require Import Base Vec RK Thermo ThermoProps Microphysics MicrophysicsProps BoundaryLayer.
From Coq Require Import Permutation Sorted.
Open Scope R_scope.

(** ** C47: wind drag *)
Lemma speed_nonneg : forall k u, 0 <= speed k u.
Proof. intros. apply sqrt_pos. Qed.
Lemma horizontal_idem : forall k u, dot k k = 1 -> forall i, horizontal k (horizontal k u) i = horizontal k u i.
Proof.
  intros k u H i. unfold horizontal at 1. assert (E : dot (horizontal k u) k = 0); [|rewrite E; ring].
  unfold dot in *. unfold horizontal, dot. 
  replace ((u AX - k AX * (u AX * k AX + u AY * k AY + u AZ * k AZ)) * k AX + (u AY - k AY * (u AX * k AX + u AY * k AY + u AZ * k AZ)) * k AY + (u AZ - k AZ * (u AX * k AX + u AY * k AY + u AZ * k AZ)) * k AZ)
    with ((u AX * k AX + u AY * k AY + u AZ * k AZ) * (1 - (k AX * k AX + k AY * k AY + k AZ * k AZ))) by ring.
  rewrite H. ring.
Qed.
Lemma horizontal_scale : forall k u c i, horizontal k (fun j => c * u j) i = c * horizontal k u i.
Proof. intros. unfold horizontal, dot. ring. Qed.

Record bl_ok (B : blparams) : Prop := { ok_z : 0 < z_a B; ok_0 : 0 <= C_D0 B; ok_1 : 0 <= C_D1 B; ok_2 : 0 <= C_D2 B; ok_H : 0 <= C_H B; ok_E : 0 <= C_E B }.
Example default_bl_ok : bl_ok default_bl.
Proof. split; simpl; lra. Qed.

(** One Euler step of the implicit wind drag multiplies the horizontal wind by a factor in
    (0,1] (strictly less than one where there is wind and drag), leaves the vertical wind and
    everything above the surface layer alone: for every wind, time step and coefficients. *)
Theorem drag_damps : forall B k z dt u, bl_ok B -> dot k k = 1 -> 0 < dt ->
  exists f, 0 < f <= 1 /\
    (forall i, euler_step_of dt (drag_implicit B k z dt) u i = k i * dot u k + f * (u i - k i * dot u k)) /\
    (z_a B <= z -> f = 1) /\
    (z < z_a B -> 0 < C_D B k u -> 0 < speed k u -> f < 1).
Proof.
  intros B k z dt u Ok Hk Hdt. pose proof (speed_nonneg k u) as Hs.
  assert (HC : 0 <= C_D B k u).
  { unfold C_D, cond. destruct (Rlt_dec _ _); [|apply (ok_2 B Ok)].
    pose proof (ok_0 B Ok). pose proof (ok_1 B Ok). assert (0 <= C_D1 B * speed k u) by (apply Rmult_le_pos; auto). lra. }
  pose proof (ok_z B Ok) as Hz.
  set (q := C_D B k u * speed k u * dt / z_a B).
  assert (Hq : 0 <= q). { unfold q. apply Rmult_le_pos; [|left; apply Rinv_0_lt_compat; auto]. repeat apply Rmult_le_pos; lra. }
  assert (G : forall i, euler_step_of dt (drag_implicit B k z dt) u i = u i + surface B z * (/ (1 + q) - 1) * horizontal k u i).
  { intros i. rewrite euler_of. unfold drag_implicit, drag_source. fold q.
    replace (horizontal k (fun j => surface B z * (horizontal k u j / (1 + q) - horizontal k u j) / dt) i)
      with (surface B z * (/ (1 + q) - 1) / dt * horizontal k u i).
    - field. lra.
    - rewrite <- (horizontal_idem k u Hk i). rewrite <- horizontal_scale. unfold horizontal, dot. field. lra. }
  unfold surface, cond in *. destruct (Rlt_dec z (z_a B)) as [Z|Z].
  - exists (/ (1 + q)). split; [|split; [|split]].
    + split; [apply Rinv_0_lt_compat; lra|]. rewrite <- Rinv_1 at 2. apply Rinv_le_contravar; lra.
    + intros i. rewrite G. unfold horizontal. ring.
    + intros; lra.
    + intros _ H1 H2. assert (0 < q). { unfold q. apply Rmult_lt_0_compat; [|apply Rinv_0_lt_compat; auto]. repeat apply Rmult_lt_0_compat; auto. }
      rewrite <- Rinv_1. apply Rinv_lt_contravar; lra.
  - exists 1. split; [lra|split; [|split]]; try lra. intros i. rewrite G. ring.
Qed.
(** Hence the horizontal wind speed never grows *)
Theorem drag_speed : forall B k z dt u, bl_ok B -> dot k k = 1 -> 0 < dt ->
  speed k (euler_step_of dt (drag_implicit B k z dt) u) <= speed k u /\
  dot (euler_step_of dt (drag_implicit B k z dt) u) k = dot u k.
Proof.
  intros B k z dt u Ok Hk Hdt. destruct (drag_damps B k z dt u Ok Hk Hdt) as [f [Hf [E _]]].
  set (u' := euler_step_of dt (drag_implicit B k z dt) u) in *.
  assert (V : dot u' k = dot u k).
  { unfold dot at 1. rewrite !E. 
    transitivity (dot u k * dot k k + f * (dot u k - dot u k * dot k k)); [unfold dot; ring|rewrite Hk; ring]. }
  split; auto.
  assert (Hh : forall i, horizontal k u' i = f * horizontal k u i). { intros i. unfold horizontal. rewrite V, E. ring. }
  unfold speed. replace (dot (horizontal k u') (horizontal k u')) with (f * f * dot (horizontal k u) (horizontal k u)) by (unfold dot; rewrite !Hh; ring).
  apply sqrt_le_1_alt. set (d := dot (horizontal k u) (horizontal k u)).
  assert (0 <= d). { unfold d, dot. pose proof (Rle_0_sqr (horizontal k u AX)). pose proof (Rle_0_sqr (horizontal k u AY)). pose proof (Rle_0_sqr (horizontal k u AZ)). unfold Rsqr in *. lra. }
  assert (f * f <= 1) by nra. nra.
Qed.
(** The general formulation, stepped explicitly, can reverse the wind *)
Theorem drag_general_explicit_refuted : exists B k z dt u, bl_ok B /\ dot k k = 1 /\ 0 < dt /\
  0 < u AX /\ euler_step_of dt (drag_general B k z) u AX < 0.
Proof.
  exists default_bl, (fun i => match i with AZ => 1 | _ => 0 end), 0, 75000, (fun i => match i with AX => 20 | _ => 0 end).
  assert (S : forall B : blparams, speed (fun i => match i with AZ => 1 | _ => 0 end) (fun i => match i with AX => 20 | _ => 0 end) = 20).
  { intros _. unfold speed, dot, horizontal, dot. match goal with |- sqrt ?a = _ => replace a with (20 * 20) by ring end. apply sqrt_square. lra. }
  repeat split; try (simpl; lra).
  - unfold dot. ring.
  - rewrite euler_of. unfold drag_general, C_D. rewrite (S default_bl). unfold surface, cond, horizontal, dot. simpl.
    destruct (Rlt_dec 0 75); [|lra]. destruct (Rlt_dec 20 20); [lra|]. lra.
Qed.

(** ** C47: surface fluxes *)
Definition between (a x b : R) : Prop := Rmin a b <= x <= Rmax a b.
Lemma average_between : forall a b q, 0 <= q -> between a ((a + q * b) / (1 + q)) b.
Proof.
  intros a b q Hq. unfold between. assert (E : (a + q * b) / (1 + q) * (1 + q) = a + q * b) by (field; lra).
  set (y := (a + q * b) / (1 + q)) in *. unfold Rmin, Rmax. destruct (Rle_dec a b); split; nra.
Qed.
Section FluxProps.
Variables (P : cparams) (B : blparams) (z umag rho Ts dt : R) (moist : bool).
Hypotheses (A : admissible P) (Ok : bl_ok B) (Hu : 0 <= umag) (Hdt : 0 < dt).
Lemma coefficient : forall C, 0 <= C -> 0 <= C * umag * dt / z_a B.
Proof. intros C HC. apply Rmult_le_pos; [|left; apply Rinv_0_lt_compat, (ok_z B Ok)]. repeat apply Rmult_le_pos; lra. Qed.
Lemma T_np1_between : forall x, between (fl_T P rho moist x) (T_np1 P B umag rho Ts moist dt x) Ts.
Proof.
  intros x. unfold T_np1. pose proof (coefficient (C_H B) (ok_H B Ok)) as Q. set (q := C_H B * umag * dt / z_a B) in *.
  replace (C_H B * umag * Ts * dt / z_a B) with (q * Ts) by (unfold q; field; apply Rgt_not_eq, (ok_z B Ok)). apply average_between; auto.
Qed.
Lemma mv_np1_between : forall x, between (x Mv) (mv_np1 P B umag rho moist dt x) (mv_sat P rho moist x).
Proof.
  intros x. unfold mv_np1. pose proof (coefficient (C_E B) (ok_E B Ok)) as Q. set (q := C_E B * umag * dt / z_a B) in *.
  set (m := mv_sat P rho moist x). replace (C_E B * umag * m * dt / z_a B) with (q * m) by (unfold q; field; apply Rgt_not_eq, (ok_z B Ok)). apply average_between; auto.
Qed.
End FluxProps.

(** After one Euler step of the implicit formulation the moisture lies between its old value
    and saturation, and the temperature - at the old pressure, which the scheme holds fixed -
    between its old value and the surface temperature.  Nothing changes above the layer. *)
Theorem surface_flux_implicit : forall P B z umag rho Ts dt moist x,
  admissible P -> bl_ok B -> 0 <= umag -> 0 < dt -> 0 < rho -> 0 < x Th -> 0 <= x Mv ->
  (moist = true -> e_sat P (fl_T P rho moist x) < fl_p P rho x) ->
  let y := euler_step_of dt (flux_implicit P B z umag rho Ts moist dt) x in
  let exner := exner_pressure P rho (x Th) in
  let r w := if moist then Some (w Mv) else None in
  (z < z_a B ->
     between (T_of P (x Th) exner (r x)) (T_of P (y Th) exner (r y)) Ts /\
     (moist = true -> between (x Mv) (y Mv) (r_sat P (T_of P (x Th) exner (r x)) (p_of P exner)) /\ 0 <= y Mv)) /\
  (moist = false -> y Mv = x Mv) /\
  (z_a B <= z -> y Th = x Th /\ y Mv = x Mv).
Proof.
  intros P B z umag rho Ts dt moist x A Ok Hu Hdt Hrho Hth Hm He y exner r.
  assert (Y : forall v, y v = x v - dt * flux_implicit P B z umag rho Ts moist dt x v) by (intros; apply euler_of).
  pose proof (T_np1_between P B umag rho Ts dt moist Ok Hu Hdt x) as BT.
  pose proof (mv_np1_between P B umag rho dt moist Ok Hu Hdt x) as BM.
  assert (Hex : 0 < exner) by apply Rpower_pos.
  split; [|split].
  - intros Hz. unfold surface, cond in *.
    assert (S1 : surface B z = 1) by (unfold surface, cond; destruct (Rlt_dec z (z_a B)); lra).
    assert (YT : y Th = theta_np1 P B umag rho Ts moist dt x).
    { rewrite Y. unfold flux_implicit. rewrite S1. field. lra. }
    destruct moist.
    + assert (YM : y Mv = mv_np1 P B umag rho true dt x). { rewrite Y. unfold flux_implicit. rewrite S1. field. lra. }
      assert (N : 0 <= y Mv).
      { rewrite YM. destruct BM as [BM _]. pose proof (r_sat_pos P A _ _ (He eq_refl)) as RS. fold (mv_sat P rho true x) in RS.
        unfold Rmin in BM. destruct (Rle_dec (x Mv) (mv_sat P rho true x)); lra. }
      split; [|intros _; split; [rewrite YM; apply BM|auto]].
      assert (E : T_of P (y Th) exner (r y) = T_np1 P B umag rho Ts true dt x); [|rewrite E; apply BT].
      unfold r. rewrite YT. unfold theta_np1. rewrite <- YM. set (T1 := T_np1 P B umag rho Ts true dt x).
      unfold T_of. pose proof (T_of_theta P A T1 exner Hex) as TT. unfold T_of in TT. unfold fl_p, fl_exner. fold exner.
      pose proof (ad_Rd P A). pose proof (ad_Rv P A).
      assert (0 <= y Mv * R_v P / R_d P). { apply Rmult_le_pos; [apply Rmult_le_pos; lra|left; apply Rinv_0_lt_compat; auto]. }
      assert (E1 : 1 + y Mv / (R_d P / R_v P) = 1 + y Mv * R_v P / R_d P) by (field; lra). rewrite E1.
      set (g := 1 + y Mv * R_v P / R_d P) in *. transitivity (theta_of P T1 (p_of P exner) * exner); [field; unfold g; lra|exact TT].
    + split; [|discriminate].
      assert (E : T_of P (y Th) exner (r y) = T_np1 P B umag rho Ts false dt x); [|rewrite E; apply BT].
      unfold r. rewrite YT. unfold theta_np1, fl_p, fl_exner. fold exner. apply (T_of_theta P A); auto.
  - intros ->. rewrite Y. unfold flux_implicit. ring.
  - intros Hz. assert (S0 : surface B z = 0) by (unfold surface, cond; destruct (Rlt_dec z (z_a B)); lra).
    rewrite !Y. unfold flux_implicit. rewrite S0. split; [|destruct moist]; unfold Rdiv; ring.
Qed.
(** a warm moist surface meets the hypotheses: see [flux_hypotheses] below *)

(** The general formulation should move theta_vd as the temperature tendency does at fixed
    density: theta_vd as a function of temperature is [theta_at].  In the dry case: *)
Definition theta_at (P : cparams) (rho T : R) : R := T / Rpower (rho * R_d P * T / p_0 P) (kappa P).
Lemma theta_at_inverse : forall P rho theta, admissible P -> 0 < rho -> 0 < theta ->
  theta_at P rho (T_of P theta (exner_pressure P rho theta) None) = theta.
Proof.
  intros P rho th A Hr Ht. unfold theta_at. pose proof (ideal_gas_dry P A rho th Hr Ht) as G. cbv zeta in G. rewrite <- G.
  set (ex := exner_pressure P rho th). assert (0 < ex) by apply Rpower_pos. rewrite (exner_is_pressure_power P A ex) by auto.
  unfold T_of. field. lra.
Qed.
Lemma theta_at_deriv : forall P rho T, admissible P -> 0 < rho -> 0 < T ->
  derivable_pt_lim (theta_at P rho) T ((1 - kappa P) / Rpower (rho * R_d P * T / p_0 P) (kappa P)).
Proof.
  intros P rho T A Hr HT. pose proof (ad_Rd P A). pose proof (ad_p0 P A).
  set (c := rho * R_d P / p_0 P). assert (Hc : 0 < c) by (unfold c; apply Rdiv_lt_0_compat; [apply Rmult_lt_0_compat|]; auto).
  assert (CT : forall t, rho * R_d P * t / p_0 P = c * t) by (intros; unfold c; field; lra).
  apply (deriv_ext (fun t => t / Rpower (c * t) (kappa P))). { intros t. unfold theta_at. rewrite CT. reflexivity. }
  rewrite CT. set (a := kappa P). pose proof (power_linear_deriv c a T Hc HT) as D. pose proof (Rpower_pos (c * T) a) as Pp.
  pose proof (derivable_pt_lim_div id (fun y => Rpower (c * y) a) T 1 _ (derivable_pt_lim_id T) D) as DD.
  assert (NZ : Rpower (c * T) a <> 0) by lra. specialize (DD NZ).
  replace ((1 - a) / Rpower (c * T) a) with ((1 * Rpower (c * T) a - a * Rpower (c * T) a / T * id T) / Rsqr (Rpower (c * T) a)).
  - exact DD.
  - unfold Rsqr, id. field. lra.
Qed.
(** The code's expression is that derivative when the density is 1, or where there is no flux *)
Theorem general_flux_partial : forall P B z umag Ts x, admissible P -> 0 < x Th ->
  let rho := 1 in let T := T_of P (x Th) (exner_pressure P rho (x Th)) None in
  let dT := cond z (z_a B) 1 0 * C_H B * umag * (Ts - T) / z_a B in
  exists d, derivable_pt_lim (theta_at P rho) T d /\ - flux_general P B z umag rho Ts false x Th = d * dT.
Proof.
  intros P B z umag Ts x A Hth rho T dT. assert (Hr : 0 < rho) by (unfold rho; lra).
  assert (Hex : 0 < exner_pressure P rho (x Th)) by apply Rpower_pos.
  assert (HT : 0 < T) by (unfold T, T_of; apply Rmult_lt_0_compat; auto).
  eexists. split; [apply theta_at_deriv; auto|].
  pose proof (ideal_gas_dry P A rho (x Th) Hr Hth) as G. cbv zeta in G. fold T in G. rewrite <- G.
  rewrite (exner_is_pressure_power P A) by auto.
  unfold flux_general, dtheta_dt, fl_T, rv, fl_exner. fold T. 
  replace (dT_dt P B z umag rho Ts false x) with dT by reflexivity. fold T.
  set (e := exner_pressure P rho (x Th)) in *.
  assert (Tn : x Th = T / e) by (unfold T, T_of; field; lra). rewrite Tn. clearbody T e dT. unfold rho. field. lra.
Qed.
(** ... and is not otherwise: the division by the density is spurious. *)
Theorem general_flux_refuted : forall P B z umag rho Ts x, admissible P -> bl_ok B -> 0 < x Th -> 0 < rho -> rho <> 1 ->
  z < z_a B -> 0 < C_H B -> 0 < umag ->
  let T := T_of P (x Th) (exner_pressure P rho (x Th)) None in Ts <> T ->
  let dT := cond z (z_a B) 1 0 * C_H B * umag * (Ts - T) / z_a B in
  forall d, derivable_pt_lim (theta_at P rho) T d -> - flux_general P B z umag rho Ts false x Th <> d * dT.
Proof.
  intros P B z umag rho Ts x A Ok Hth Hr R1 Hz HC Hu T HTs dT d Hd E.
  assert (Hex : 0 < exner_pressure P rho (x Th)) by apply Rpower_pos.
  assert (HT : 0 < T) by (unfold T, T_of; apply Rmult_lt_0_compat; auto).
  pose proof (uniqueness_limite _ _ _ _ Hd (theta_at_deriv P rho T A Hr HT)) as D. rewrite D in E. clear D.
  pose proof (ideal_gas_dry P A rho (x Th) Hr Hth) as G. cbv zeta in G. fold T in G. rewrite <- G in E.
  rewrite (exner_is_pressure_power P A) in E by auto.
  assert (QT : dT <> 0).
  { unfold dT, cond. destruct (Rlt_dec z (z_a B)); [|lra]. pose proof (ok_z B Ok). 
    intros Z. assert (Z2 : 1 * C_H B * umag * (Ts - T) = 0). { apply (Rmult_eq_reg_r (/ z_a B)); [|apply Rinv_neq_0_compat; lra]. unfold Rdiv in Z. lra. }
    assert (Ts - T <> 0) by lra. apply H0. apply (Rmult_eq_reg_l (1 * C_H B * umag)); [lra|]. nra. }
  unfold flux_general, dtheta_dt, fl_T, rv, fl_exner in E. fold T in E.
  replace (dT_dt P B z umag rho Ts false x) with dT in E by reflexivity.
  set (e := exner_pressure P rho (x Th)) in *.
  assert (Tn : x Th = T / e) by (unfold T, T_of; field; lra).
  rewrite Tn in E. clearbody T e dT. pose proof (ad_kappa P A) as K.
  assert (E2 : dT * kappa P * (1 - 1 / rho) / e = 0).
  { transitivity (- - (dT * (1 / e - kappa P * (T / e) / (rho * T))) - (1 - kappa P) / e * dT); [field; lra|rewrite E; ring]. }
  assert (X : dT * kappa P * (1 - 1 / rho) = 0). { apply (Rmult_eq_reg_r (/ e)); [|apply Rinv_neq_0_compat; lra]. unfold Rdiv in E2. lra. }
  apply Rmult_integral in X. destruct X as [X|X].
  - apply Rmult_integral in X. destruct X; lra.
  - apply R1. assert (1 / rho = 1) by lra. assert (1 / rho * rho = rho) by (rewrite H; ring). replace (1 / rho * rho) with 1 in H0 by (field; lra). lra.
Qed.

(** non-vacuity: a moist state over a warm sea with the default parameters *)
Example flux_hypotheses : let x := fun v => match v with Th => 300 | Mv => 0 end in
  admissible default_params /\ bl_ok default_bl /\ 0 < x Th /\ 0 <= x Mv /\
  (forall T p, T <= 273.15 -> 36 <= T -> 700 <= p -> e_sat default_params T < p).
Proof.
  simpl. split; [apply default_admissible|]. split; [apply default_bl_ok|]. repeat split; try lra.
  intros T p HT HT2 Hp. unfold e_sat. simpl. apply Rle_lt_trans with (610.9 * 1); [|lra].
  apply Rmult_le_compat_l; [lra|]. rewrite <- exp_0. 
  assert (G : forall w t b, w <= 0 -> T <= t -> 0 < T - b -> - w * (T - t) / (T - b) <= 0).
  { clear. intros w t b H1 H2 H3. replace (- w * (T - t) / (T - b)) with (- (- w * (t - T) * / (T - b))) by (field; lra).
    assert (0 <= - w * (t - T) * / (T - b)); [|lra]. apply Rmult_le_pos; [nra|]. left. apply Rinv_0_lt_compat. lra. }
  assert (H := G (-17.27) 273.15 35.86 ltac:(lra) HT ltac:(lra)).
  destruct (Rle_lt_or_eq_dec _ _ H) as [L|E]; [left; apply exp_increasing; auto|rewrite E; right; reflexivity].
Qed.

(** ** C46: static adjustment *)
Lemma insert_perm : forall a l, Permutation (insert a l) (a :: l).
Proof. induction l; simpl; auto. destruct (Rle_dec a a0); auto. rewrite IHl. apply perm_swap. Qed.
Lemma sort_perm : forall l, Permutation (np_sort l) l.
Proof. induction l; simpl; auto. rewrite insert_perm. auto. Qed.
Lemma insert_sorted : forall a l, StronglySorted Rle l -> StronglySorted Rle (insert a l).
Proof.
  induction l; intros H; simpl. { repeat constructor. }
  inversion H; subst. destruct (Rle_dec a a0) as [L|L].
  - constructor; auto. constructor; auto. eapply Forall_impl; [|apply H3]. simpl. intros; lra.
  - constructor; auto. rewrite Forall_forall. intros y Hy. apply (Permutation_in _ (insert_perm a l)) in Hy.
    simpl in Hy. destruct Hy as [<-|Hy]; [lra|]. rewrite Forall_forall in H3. auto.
Qed.
Lemma sort_sorted : forall l, StronglySorted Rle (np_sort l).
Proof. induction l; simpl; [constructor|apply insert_sorted; auto]. Qed.
Lemma sort_id : forall l, StronglySorted Rle l -> np_sort l = l.
Proof.
  induction 1; simpl; auto. rewrite IHStronglySorted. destruct l; simpl; auto.
  inversion H0; subst. destruct (Rle_dec a r); auto. contradiction.
Qed.
Lemma sort_length : forall l, length (np_sort l) = length l.
Proof. intros. apply Permutation_length, sort_perm. Qed.
(** the sorted variable: theta / factor *)
Definition sorted_variable (factor theta : list R) : list R := map (fun '(th, f) => th / f) (combine theta factor).
Lemma sv_length : forall f t, length f = length t -> length (sorted_variable f t) = length t.
Proof. intros. unfold sorted_variable. rewrite map_length, combine_length. lia. Qed.
Lemma adjust_value : forall dt f t, 0 < dt -> length f = length t ->
  static_adjustment dt f t = map (fun '(s, f) => s * f) (combine (np_sort (sorted_variable f t)) f).
Proof.
  intros dt f t Hdt L. unfold static_adjustment. fold (sorted_variable f t).
  set (srt := map _ (combine (np_sort _) f)).
  assert (LS : length srt = length t). { unfold srt. rewrite map_length, combine_length, sort_length, sv_length by auto. lia. }
  clearbody srt. revert srt LS. clear L. induction t; destruct srt; simpl; intros; try lia; auto.
  f_equal; [field; lra|apply IHt; lia].
Qed.
Lemma sv_mul : forall f s, length f = length s -> Forall (fun x => x <> 0) f ->
  sorted_variable f (map (fun '(s, f) => s * f) (combine s f)) = s.
Proof.
  intros f s. revert f. induction s; destruct f; simpl; intros L H; try lia; auto.
  inversion H; subst. unfold sorted_variable in *. simpl. f_equal; [field; auto|apply IHs; auto].
Qed.
(** In every column, for all values and positive moisture factors, one Euler step leaves the
    sorted variable (theta / factor) non-decreasing with height and a rearrangement of its old
    values, and a column already stable is returned unchanged. *)
Theorem static_adjustment_sorts : forall dt factor theta, 0 < dt -> length factor = length theta -> Forall (fun f => 0 < f) factor ->
  let v := sorted_variable factor theta in let v' := sorted_variable factor (static_adjustment dt factor theta) in
  StronglySorted Rle v' /\ Permutation v' v /\ (StronglySorted Rle v -> static_adjustment dt factor theta = theta).
Proof.
  intros dt f t Hdt L Hf v v'.
  assert (Hf' : Forall (fun x => x <> 0) f) by (eapply Forall_impl; [|apply Hf]; simpl; intros; lra).
  assert (E : v' = np_sort v). { unfold v'. rewrite adjust_value by auto. apply sv_mul; auto. fold v. rewrite sort_length. unfold v. rewrite sv_length; auto. }
  rewrite E. split; [apply sort_sorted|split; [apply sort_perm|]].
  intros S. rewrite adjust_value by auto. fold v. rewrite (sort_id v S). unfold v. clear - L Hf'. revert f L Hf'.
  induction t; destruct f; simpl; intros L H; try lia; auto. inversion H; subst. f_equal; [field; auto|apply IHt; auto].
Qed.
(** dry (or theta_vd as the variable): theta itself is rearranged, so sums are unchanged *)
Lemma sv_ones : forall t, sorted_variable (map (fun _ => 1) t) t = t.
Proof. unfold sorted_variable. induction t; simpl; auto. f_equal; auto. field. Qed.
Lemma sv_ones_len : forall (t s : list R), length t = length s -> sorted_variable (map (fun _ => 1) t) s = s.
Proof. unfold sorted_variable. induction t; destruct s; simpl; intros; try lia; auto. f_equal; [field|apply IHt; lia]. Qed.
Theorem static_adjustment_dry : forall dt theta, 0 < dt ->
  let theta' := static_adjustment dt (map (fun _ => 1) theta) theta in
  StronglySorted Rle theta' /\ Permutation theta' theta /\ (StronglySorted Rle theta -> theta' = theta) /\
  fold_right Rplus 0 theta' = fold_right Rplus 0 theta.
Proof.
  intros dt t Hdt t'. assert (L : length (map (fun _ : R => 1) t) = length t) by apply map_length.
  assert (F : Forall (fun f => 0 < f) (map (fun _ : R => 1) t)) by (rewrite Forall_map; apply Forall_forall; intros; lra).
  destruct (static_adjustment_sorts dt _ t Hdt L F) as [S [Pm U]].
  assert (LL : length t' = length t). { unfold t'. rewrite adjust_value by auto. rewrite map_length, combine_length, sort_length, sv_length by auto. lia. }
  fold t' in S, Pm, U. rewrite sv_ones in Pm, U. rewrite sv_ones_len in S, Pm by lia.
  split; [|split; [|split]]; auto.
  assert (G : forall a b, Permutation a b -> fold_right Rplus 0 a = fold_right Rplus 0 b); [|auto].
  induction 1; simpl; lra.
Qed.
(** ... while with moisture the virtual dry potential temperature theta itself is in general
    not rearranged, nor its sum kept *)
Theorem static_adjustment_moist_sum_refuted : exists factor theta, Forall (fun f => 0 < f) factor /\ length factor = length theta /\
  fold_right Rplus 0 (static_adjustment 1 factor theta) <> fold_right Rplus 0 theta.
Proof.
  exists [1; 2], [2; 2]. split; [repeat constructor; lra|]. split; auto.
  rewrite adjust_value by (auto; lra). unfold sorted_variable. simpl. destruct (Rle_dec (2/1) (2/2)); simpl; lra.
Qed.
Example static_adjustment_runs : static_adjustment 10 [1;1;1] [302;300;301] = [300;301;302].
Proof.
  rewrite adjust_value by (auto; lra). unfold sorted_variable. simpl.
  repeat (destruct (Rle_dec _ _); simpl); try lra; repeat f_equal; field.
Qed.

(** ** C64: vertical wind suppression.  A history is the sequence of (time, vertical wind, dt)
    at which the scheme is applied; the same object is used throughout. *)
Fixpoint suppress_history (spin_up : R) (s : suppress) (h : list (R * R * R)) : list (option R) :=
  match h with
  | [] => []
  | (t, w, dt) :: r => let '(s', o) := suppress_step spin_up s t w dt in o :: suppress_history spin_up s' r
  end.
(** what is expected of one application *)
Definition suppressed (spin_up : R) (x : R * R * R) : option R := let '(t, w, _) := x in if Rlt_dec t spin_up then Some 0 else Some w.
Definition times_increase (h : list (R * R * R)) : Prop := StronglySorted (fun a b => fst (fst a) <= fst (fst b)) h.
Lemma history_from : forall spin_up h s, times_increase h -> Forall (fun x => 0 < snd x) h -> sv_dt s <> 0 ->
  (sv_done s = true -> sv_strength s = 0 /\ Forall (fun x => spin_up <= fst (fst x)) h) ->
  (sv_done s = false -> sv_strength s = 1) ->
  suppress_history spin_up s h = map (suppressed spin_up) h.
Proof.
  induction h as [|[[t w] dt] h IH]; intros s T D Hdt HD HN; auto. simpl.
  inversion T; subst. inversion D; subst. simpl in *.
  unfold suppress_evaluate. destruct (Rlt_dec t spin_up) as [L|L].
  - assert (Z : sv_done s = false). { destruct (sv_done s) eqn:E; auto. destruct (HD eq_refl) as [_ F]. inversion F; subst. simpl in *. lra. }
    simpl. f_equal.
    + destruct (Req_EM_T dt 0); [lra|]. f_equal. rewrite (HN Z). field. auto.
    + apply IH; auto; simpl. lra. intros Q. congruence.
  - destruct (sv_done s) eqn:E.
    + destruct (HD eq_refl) as [S F]. f_equal.
      * destruct (Req_EM_T (sv_dt s) 0); [contradiction|]. f_equal. rewrite S. field. auto.
      * apply IH; auto. intros _. inversion F; auto. congruence.
    + simpl. f_equal.
      * destruct (Req_EM_T (sv_dt s) 0); [contradiction|]. f_equal. field. auto.
      * apply IH; auto; simpl; [|discriminate]. intros _. split; auto.
        rewrite Forall_forall in *. intros y Hy. specialize (H2 y Hy). lra.
Qed.
(** For every history whose times increase and whose first application is during the spin-up *)
Theorem suppress_partial : forall spin_up h t w dt, times_increase ((t, w, dt) :: h) -> Forall (fun x => 0 < snd x) ((t, w, dt) :: h) ->
  t < spin_up ->
  suppress_history spin_up suppress_init ((t, w, dt) :: h) = map (suppressed spin_up) ((t, w, dt) :: h).
Proof.
  intros spin_up h t w dt T D L. simpl. unfold suppress_evaluate. destruct (Rlt_dec t spin_up); [|lra]. simpl.
  inversion T; subst. inversion D; subst. simpl in *. f_equal.
  - destruct (Req_EM_T dt 0); [lra|]. f_equal. field. auto.
  - apply history_from; simpl; auto; try discriminate. lra.
Qed.
(** Any history whose first application is after the spin-up (picking up a checkpoint taken
    after it): every application divides 0 by 0. *)
Theorem suppress_pick_up_refuted : forall spin_up h t w dt, times_increase ((t, w, dt) :: h) -> spin_up <= t ->
  Forall (fun o => o = None) (suppress_history spin_up suppress_init ((t, w, dt) :: h)).
Proof.
  intros spin_up h t w dt T L.
  assert (G : forall h s, sv_dt s = 0 -> Forall (fun x => spin_up <= fst (fst x)) h -> Forall (fun o => o = None) (suppress_history spin_up s h)).
  { induction h0 as [|[[t' w'] d'] h0 IH]; intros s Z F; simpl; constructor; inversion F; subst; simpl in *;
    unfold suppress_evaluate; destruct (Rlt_dec t' spin_up); try lra; destruct (sv_done s); simpl; rewrite ?Z; try (destruct (Req_EM_T 0 0); [auto|congruence]); apply IH; auto. }
  apply G; auto. inversion T; subst. constructor; auto. simpl in *. eapply Forall_impl; [|apply H2]. simpl. intros; lra.
Qed.
(** Running the same object a second time from the beginning: the wind is no longer suppressed *)
Theorem suppress_second_run_refuted : exists spin_up h1 h2, times_increase h1 /\ times_increase h2 /\
  Forall (fun x => 0 < snd x) (h1 ++ h2) /\
  suppress_history spin_up suppress_init (h1 ++ h2) <> map (suppressed spin_up) (h1 ++ h2).
Proof.
  exists 1, [(0, 5, 1); (1, 5, 1)], [(0, 5, 1)]. repeat split; try (repeat constructor; simpl; lra).
  simpl. unfold suppress_evaluate. destruct (Rlt_dec 0 1); [|lra]. destruct (Rlt_dec 1 1); [lra|]. simpl.
  destruct (Req_EM_T 1 0); [lra|]. intros E. injection E. intros. lra.
Qed.

(** ** Held-Suarez *)
Record hs_ok (H : hsparams) : Prop := { hs_sb : 0 < sigmab H < 1; hs_tu : 0 < tau_u H; hs_td : tau_u H <= tau_d H }.
Example default_hs_ok : hs_ok default_hs.
Proof. split; simpl; lra. Qed.
Section HS.
Variables (H : hsparams) (kap lat : R).
Hypotheses (Ok : hs_ok H) (Hk : 0 < kap).
Lemma pos_tau_range : forall sigma, 0 < sigma <= 1 -> 0 <= pos_tau_cond H kap sigma <= 1.
Proof.
  intros s Hs. unfold pos_tau_cond. destruct (Rle_dec (tau_cond H kap s) 0); [lra|]. split; [lra|].
  unfold tau_cond. pose proof (hs_sb H Ok) as B.
  assert (Rpower s (1 / kap) <= 1).
  { unfold Rpower. apply Rle_trans with (exp 0); [|rewrite exp_0; lra]. assert (ln s <= 0). { destruct (Rle_lt_or_eq_dec s 1 (proj2 Hs)) as [L|E]; [|rewrite E, ln_1; lra]. left. rewrite <- ln_1. apply ln_increasing; lra. }
    assert (0 < 1 / kap) by (apply Rdiv_lt_0_compat; lra).
    assert (1 / kap * ln s <= 0) by nra.
    destruct (Rle_lt_or_eq_dec _ _ H2) as [L|E]; [left; apply exp_increasing; auto|rewrite E; right; reflexivity]. }
  apply Rmult_le_reg_r with (1 - sigmab H); [lra|]. unfold Rdiv. rewrite Rmult_assoc, Rinv_l by lra. lra.
Qed.
Lemma cos4_range : 0 <= cos lat * cos lat * cos lat * cos lat <= 1.
Proof.
  pose proof (COS_bound lat) as C. set (c := cos lat) in *. assert (c * c <= 1) by nra. assert (0 <= c * c) by nra.
  replace (c * c * c * c) with ((c * c) * (c * c)) by ring. split; nra.
Qed.
(** the relaxation rate lies between the free-atmosphere and boundary-layer rates *)
Theorem newton_freq_range : forall sigma, 0 < sigma <= 1 -> 1 / tau_d H <= newton_freq H kap lat sigma <= 1 / tau_u H.
Proof.
  intros s Hs. unfold newton_freq. pose proof (pos_tau_range s Hs) as Pt. pose proof cos4_range as C.
  pose proof (hs_tu H Ok). pose proof (hs_td H Ok).
  assert (1 / tau_d H <= 1 / tau_u H). { unfold Rdiv. rewrite !Rmult_1_l. apply Rinv_le_contravar; auto. }
  set (a := 1 / tau_d H) in *. set (b := 1 / tau_u H) in *. set (p := pos_tau_cond H kap s) in *. set (c := cos lat * cos lat * cos lat * cos lat) in *.
  assert (0 <= p * c <= 1) by (split; nra). replace ((b - a) * p * c) with ((b - a) * (p * c)) by ring. split; nra.
Qed.
(** an Euler step no longer than tau_u moves theta towards its equilibrium without overshoot *)
Theorem relaxation_monotone : forall sigma exner dt theta, 0 < sigma <= 1 -> 0 <= dt <= tau_u H ->
  between theta (euler_step_of dt (fun x (_ : unit) => relaxation H kap lat sigma exner (x tt)) (fun _ => theta) tt) (theta_eq H kap lat exner).
Proof.
  intros s ex dt th Hs Hdt. rewrite euler_of. unfold relaxation, between. pose proof (newton_freq_range s Hs) as [F1 F2].
  pose proof (hs_tu H Ok). pose proof (hs_td H Ok).
  set (f := newton_freq H kap lat s) in *. set (e := theta_eq H kap lat ex).
  assert (0 < 1 / tau_d H) by (apply Rdiv_lt_0_compat; lra).
  assert (dt * f <= 1). { apply Rle_trans with (tau_u H * (1 / tau_u H)); [|right; field; lra]. apply Rmult_le_compat; lra. }
  assert (0 <= dt * f) by (apply Rmult_le_pos; lra).
  replace (th - dt * (f * (th - e))) with (th - (dt * f) * (th - e)) by ring. set (q := dt * f) in *.
  unfold Rmin, Rmax. destruct (Rle_dec th e); split; nra.
Qed.
(** the equilibrium is never colder than the stratospheric temperature *)
Theorem equilibrium_floor : forall exner, 0 < exner -> T0stra H <= theta_eq H kap lat exner * exner.
Proof.
  intros ex He. unfold theta_eq. set (c := _ - _ - _). destruct (Rle_dec c (T0stra H / ex)) as [L|L].
  - right. field. lra.
  - apply Rnot_le_lt in L. apply Rmult_lt_compat_r with (r := ex) in L; auto. unfold Rdiv in L. rewrite Rmult_assoc, Rinv_l in L by lra. lra.
Qed.
(** Rayleigh friction damps the horizontal wind by a factor in [0,1] for steps up to a day *)
Theorem friction_damps : forall sigma k u dt, 0 < sigma <= 1 -> 0 <= dt <= 24 * 60 * 60 ->
  exists f, 0 <= f <= 1 /\ forall i, euler_step_of dt (friction H kap sigma k) u i = k i * dot u k + f * (u i - k i * dot u k).
Proof.
  intros s k u dt Hs Hdt. pose proof (pos_tau_range s Hs) as Pt. exists (1 - dt * wind_timescale H kap s).
  assert (0 <= wind_timescale H kap s * (24 * 60 * 60) <= 1). { unfold wind_timescale. replace (pos_tau_cond H kap s / (24 * 60 * 60) * (24 * 60 * 60)) with (pos_tau_cond H kap s) by field. auto. }
  split. { set (w := wind_timescale H kap s) in *. split; nra. }
  intros i. rewrite euler_of. unfold friction, horizontal. ring.
Qed.
End HS.

Print Assumptions drag_damps.
Print Assumptions drag_speed.
Print Assumptions surface_flux_implicit.
Print Assumptions general_flux_refuted.
Print Assumptions static_adjustment_sorts.
Print Assumptions static_adjustment_dry.
Print Assumptions suppress_partial.
Print Assumptions suppress_pick_up_refuted.
Print Assumptions newton_freq_range.
Print Assumptions relaxation_monotone.
Print Assumptions equilibrium_floor.
Print Assumptions friction_damps.
