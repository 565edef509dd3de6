(** The analytical formulation of the terminator chemistry is the exact solution: C74. *)
From Verif Require Import Base Vec RK Thermo ThermoProps Microphysics MicrophysicsProps.
Open Scope R_scope.

Definition X_T : R := 4 / 1000000.
(** a solution of the chemistry's equations with total X + 2 X2 = X_T, starting at x0:
    X' = 2 (k1 X2 - k2 X^2) *)
Definition solves_chemistry (k1 k2 x0 : R) (Z : R -> R) : Prop :=
  Z 0 = x0 /\ forall t, 0 <= t -> derivable_pt_lim Z t (2 * (k1 * ((X_T - Z t) / 2) - k2 * (Z t * Z t))).

Section Exact.
Variables (k1 k2 x0 : R).
Hypothesis (Hk1 : 0 < k1) (Hk2 : 0 < k2) (Hx0 : 0 <= x0 <= X_T).
Definition rr : R := k1 / (4 * k2).
Definition dd : R := sqrt (rr * rr + 2 * X_T * rr).
Definition ee (t : R) : R := exp (- 4 * k2 * dd * t).
Definition num (t : R) : R := dd * ((x0 + rr) * (1 + ee t) + dd * (1 - ee t)).
Definition den (t : R) : R := (x0 + rr) * (1 - ee t) + dd * (1 + ee t).
Definition exact (t : R) : R := num t / den t - rr.
Lemma XTpos : 0 < X_T. Proof. unfold X_T. lra. Qed.
Lemma rr_pos : 0 < rr. Proof. unfold rr. apply Rdiv_lt_0_compat; lra. Qed.
Lemma dd_sq : dd * dd = rr * rr + 2 * X_T * rr.
Proof. unfold dd. apply sqrt_sqrt. pose proof rr_pos. pose proof XTpos. assert (0 < rr * rr) by nra. assert (0 < X_T * rr) by nra. lra. Qed.
Lemma dd_pos : 0 < dd.
Proof. apply sqrt_lt_R0. pose proof rr_pos. pose proof XTpos. assert (0 < rr * rr) by nra. assert (0 < X_T * rr) by nra. lra. Qed.
Lemma ee_pos : forall t, 0 < ee t. Proof. intros. apply exp_pos. Qed.
Lemma ee_le : forall t, 0 <= t -> ee t <= 1.
Proof.
  intros t Ht. unfold ee. rewrite <- exp_0. pose proof dd_pos as D.
  assert (0 <= k2 * dd * t) by (apply Rmult_le_pos; auto; apply Rmult_le_pos; lra).
  destruct (Req_dec (k2 * dd * t) 0) as [E|E].
  - replace (-4 * k2 * dd * t) with (-4 * (k2 * dd * t)) by ring. rewrite E. right. f_equal. ring.
  - left. apply exp_increasing. nra.
Qed.
Lemma den_pos : forall t, 0 <= t -> 0 < den t.
Proof.
  intros t Ht. unfold den. pose proof rr_pos. pose proof dd_pos. pose proof (ee_pos t). pose proof (ee_le t Ht).
  assert (0 <= (x0 + rr) * (1 - ee t)) by (apply Rmult_le_pos; lra). assert (0 < dd * (1 + ee t)) by (apply Rmult_lt_0_compat; lra). lra.
Qed.
Lemma ee_deriv : forall t, derivable_pt_lim ee t (ee t * (- 4 * k2 * dd)).
Proof.
  intros t. unfold ee.
  apply (derivable_pt_lim_comp (fun t => - 4 * k2 * dd * t) exp).
  - assert (D : derivable_pt_lim (mult_real_fct (- 4 * k2 * dd) id) t (- 4 * k2 * dd * 1)) by (apply derivable_pt_lim_scal; apply derivable_pt_lim_id).
    rewrite Rmult_1_r in D. exact D.
  - apply derivable_pt_lim_exp.
Qed.
(* derivative of a + b * ee *)
Lemma affine_deriv : forall a b t, derivable_pt_lim (fun t => a + b * ee t) t (b * (ee t * (- 4 * k2 * dd))).
Proof.
  intros a b t.
  assert (D : derivable_pt_lim (plus_fct (fct_cte a) (mult_real_fct b ee)) t (0 + b * (ee t * (- 4 * k2 * dd)))).
  { apply derivable_pt_lim_plus; [apply derivable_pt_lim_const|apply derivable_pt_lim_scal; apply ee_deriv]. }
  rewrite Rplus_0_l in D. exact D.
Qed.
Lemma exact_0 : exact 0 = x0.
Proof.
  unfold exact, num, den, ee. replace (-4 * k2 * dd * 0) with 0 by ring. rewrite exp_0. pose proof dd_pos. field. lra.
Qed.
Lemma exact_solves : solves_chemistry k1 k2 x0 exact.
Proof.
  split; [apply exact_0|]. intros t Ht. pose proof (den_pos t Ht) as DP. pose proof dd_pos as D. pose proof rr_pos as RP. pose proof dd_sq as DS.
  set (y := x0 + rr).
  set (dn := dd * (y - dd)). set (dq := dd - y).
  assert (DN : derivable_pt_lim num t (dn * (ee t * (- 4 * k2 * dd)))).
  { apply deriv_ext with (fun t => dd * (y + dd) + dn * ee t); [|apply affine_deriv]. intros s. unfold num, dn. fold y. ring. }
  assert (DD : derivable_pt_lim den t (dq * (ee t * (- 4 * k2 * dd)))).
  { apply deriv_ext with (fun t => (y + dd) + dq * ee t); [|apply affine_deriv]. intros s. unfold den, dq. fold y. ring. }
  assert (NZ : den t <> 0) by lra.
  pose proof (derivable_pt_lim_div num den t _ _ DN DD NZ) as DV.
  pose proof (derivable_pt_lim_minus _ _ _ _ _ DV (derivable_pt_lim_const rr t)) as DM.
  apply deriv_ext with (g := exact) in DM; [|intros s; unfold exact, minus_fct, div_fct, fct_cte; reflexivity].
  eapply eq_rect; [exact DM|].
  (* algebra: with k1 = 4 k2 rr and dd^2 = rr^2 + 2 X_T rr *)
  assert (K1 : k1 = 4 * k2 * rr) by (unfold rr; field; lra).
  unfold exact, Rsqr. set (N := num t). set (Q := den t) in *. set (e := ee t).
  assert (EN : N = dd * (y * (1 + e) + dd * (1 - e))) by reflexivity.
  assert (EQ : Q = y * (1 - e) + dd * (1 + e)) by reflexivity.
  (* right-hand side is -2 k2 ((N/Q)^2 - dd^2) *)
  assert (RHS : 2 * (k1 * ((X_T - (N / Q - rr)) / 2) - k2 * ((N / Q - rr) * (N / Q - rr))) = -2 * k2 * (N / Q * (N / Q) - dd * dd)).
  { rewrite K1, DS. field. lra. }
  rewrite RHS.
  assert (L : (dn * (e * (-4 * k2 * dd)) * Q - dq * (e * (-4 * k2 * dd)) * N) = -2 * k2 * (N * N - dd * dd * (Q * Q))).
  { rewrite EN, EQ. unfold dn, dq. ring. }
  rewrite L. field. lra.
Qed.
(** the solution stays between 0 and X_T *)
Lemma exact_bounds : forall t, 0 <= t -> 0 <= exact t <= X_T.
Proof.
  intros t Ht. pose proof (den_pos t Ht) as DP. pose proof dd_pos as D. pose proof rr_pos as RP. pose proof dd_sq as DS. pose proof XTpos as XP.
  pose proof (ee_pos t) as E0. pose proof (ee_le t Ht) as E1.
  assert (RD : rr <= dd).
  { destruct (Rle_lt_dec rr dd); auto. assert (0 < X_T * rr) by nra. assert (dd * dd < rr * rr) by nra. lra. }
  assert (DX : dd <= X_T + rr).
  { destruct (Rle_lt_dec dd (X_T + rr)); auto. assert ((X_T + rr) * (X_T + rr) < dd * dd) by nra. assert (0 < X_T * X_T) by nra. lra. }
  unfold exact. split.
  - assert (N : rr * den t <= num t).
    { unfold num, den. set (e := ee t) in *. set (y := x0 + rr). assert (YR : rr <= y) by (unfold y; lra).
      assert (A1 : 0 <= (1 + e) * dd * (y - rr)). { apply Rmult_le_pos; [apply Rmult_le_pos; lra|lra]. }
      assert (A2 : 0 <= (1 - e) * (dd * dd - rr * y)).
      { apply Rmult_le_pos; [lra|]. rewrite DS. assert (rr * y <= rr * (X_T + rr)) by (apply Rmult_le_compat_l; unfold y; lra). nra. }
      nra. }
    assert (rr <= num t / den t). { apply (Rmult_le_reg_r (den t)); auto. unfold Rdiv. rewrite Rmult_assoc, Rinv_l by lra. lra. }
    lra.
  - assert (N : num t <= (X_T + rr) * den t).
    { unfold num, den. set (e := ee t) in *. set (y := x0 + rr). assert (YX : y <= X_T + rr) by (unfold y; lra).
      assert (YP : 0 < y) by (unfold y; lra).
      destruct (Rle_lt_dec dd y) as [C|C].
      - assert (A1 : 0 <= (1 + e) * dd * (X_T + rr - y)). { apply Rmult_le_pos; [apply Rmult_le_pos; lra|lra]. }
        assert (A2 : 0 <= (1 - e) * ((X_T + rr) * y - dd * dd)). { apply Rmult_le_pos; [lra|]. assert (dd * dd <= (X_T + rr) * y) by (apply Rmult_le_compat; lra). lra. }
        nra.
      - assert (A1 : dd * (y * (1 + e) + dd * (1 - e)) <= dd * (y * (1 - e) + dd * (1 + e))).
        { apply Rmult_le_compat_l; [lra|]. assert (e * y <= e * dd) by (apply Rmult_le_compat_l; lra). lra. }
        assert (DP' : 0 < y * (1 - e) + dd * (1 + e)) by exact DP.
        assert (A2 : dd * (y * (1 - e) + dd * (1 + e)) <= (X_T + rr) * (y * (1 - e) + dd * (1 + e))) by (apply Rmult_le_compat_r; lra).
        lra. }
    assert (num t / den t <= X_T + rr). { apply (Rmult_le_reg_r (den t)); auto. unfold Rdiv. rewrite Rmult_assoc, Rinv_l by lra. lra. }
    lra.
Qed.
(** the model's unlimited source gives the increment of the exact solution *)
Lemma unlimited_is_exact : forall dt x, 0 < dt -> x X1 = x0 -> 1 / 10000000000000000 < dd * k2 * dt ->
  dt * terminator_unlimited k1 k2 dt x = exact dt - x0.
Proof.
  intros dt x Hdt Hx Hbig. unfold terminator_unlimited. rewrite Hx.
  change (4 / 1000000) with X_T. change (k1 / (4 * k2)) with rr. change (sqrt (rr * rr + 2 * X_T * rr)) with dd.
  change (exp (- 4 * k2 * dd * dt)) with (ee dt).
  pose proof dd_pos as D. pose proof (den_pos dt (Rlt_le _ _ Hdt)) as DP.
  assert (AB : Rabs (dd * k2 * dt) = dd * k2 * dt).
  { apply Rabs_pos_eq. apply Rmult_le_pos; [apply Rmult_le_pos; lra|lra]. }
  rewrite AB. unfold cond. destruct (Rlt_dec _ _); [|lra].
  unfold exact, num, den in *. set (e := ee dt) in *. set (y := x0 + rr) in *.
  replace (x0 - dd + rr) with (y - dd) by (unfold y; ring). replace (x0 + dd + rr) with (y + dd) by (unfold y; ring).
  replace (dt * ((1 - e) / (dd * dt)) * y) with ((1 - e) / dd * y) by (field; lra).
  assert (Q : 1 + e + (1 - e) / dd * y = (y * (1 - e) + dd * (1 + e)) / dd) by (field; lra).
  rewrite Q. replace x0 with (y - rr) by (unfold y; ring). field. repeat split; lra.
Qed.
End Exact.

(** With total X + 2 X2 = 4e-6 (the value the scheme assumes), non-negative species, positive
    rates and a time step that is not below the scheme's rounding threshold, one forward Euler
    step of the analytical formulation lands exactly on the solution of the chemistry. *)
Theorem terminator_step_exact : forall k1 k2 dt x, 0 < k1 -> 0 < k2 -> 0 < dt ->
  0 <= x X1 -> 0 <= x X2 -> total_chlorine x = X_T ->
  1 / 10000000000000000 < dd k1 k2 * k2 * dt ->
  exists Z, solves_chemistry k1 k2 (x X1) Z /\
    let y := euler_step_of dt (terminator_analytical k1 k2 dt) x in
    y X1 = Z dt /\ y X2 = (X_T - Z dt) / 2.
Proof.
  intros k1 k2 dt x H1 H2 Hdt HX1 HX2 HT Hbig. unfold total_chlorine in HT.
  assert (B0 : 0 <= x X1 <= X_T) by lra.
  exists (exact k1 k2 (x X1)). split; [apply exact_solves; auto|].
  pose proof (unlimited_is_exact k1 k2 (x X1) H1 H2 B0 dt x Hdt eq_refl Hbig) as U.
  pose proof (exact_bounds k1 k2 (x X1) H1 H2 B0 dt (Rlt_le _ _ Hdt)) as EB.
  assert (S : terminator_source k1 k2 dt x = terminator_unlimited k1 k2 dt x).
  { unfold terminator_source. set (s := terminator_unlimited k1 k2 dt x) in *. unfold cond.
    pose proof (div_mul (- x X1) dt Hdt) as E1. pose proof (div_mul (2 * x X2) dt Hdt) as E2.
    destruct (Rlt_dec s 0).
    - unfold Rmax. destruct (Rle_dec s (- x X1 / dt)) as [M|M]; auto.
      apply (Rmult_eq_reg_l dt); [|lra]. assert (dt * s <= dt * (- x X1 / dt)) by (apply Rmult_le_compat_l; lra). lra.
    - unfold Rmin. destruct (Rle_dec s (2 * x X2 / dt)) as [M|M]; auto.
      apply (Rmult_eq_reg_l dt); [|lra]. assert (dt * (2 * x X2 / dt) <= dt * s) by (apply Rmult_le_compat_l; lra). lra. }
  simpl. rewrite !euler_of. unfold terminator_analytical. rewrite S. set (s := terminator_unlimited k1 k2 dt x) in *.
  replace (dt * - (- s / 2)) with (dt * s / 2) by field. lra.
Qed.
(** hypotheses are satisfiable: k1 = k2 = 1, dt = 1, all of it in X2 *)
Example terminator_exact_applies :
  exists x : vec species, 0 <= x X1 /\ 0 <= x X2 /\ total_chlorine x = X_T /\ 1 / 10000000000000000 < dd 1 1 * 1 * 1.
Proof.
  exists (fun v => match v with X1 => 0 | X2 => X_T / 2 end). unfold total_chlorine, X_T. repeat split; try lra.
  rewrite !Rmult_1_r. unfold dd, rr, X_T.
  assert (1 / 4 <= sqrt (1 / (4 * 1) * (1 / (4 * 1)) + 2 * (4 / 1000000) * (1 / (4 * 1)))); [|lra].
  replace (1/4) with (sqrt ((1/4) * (1/4))) at 1 by (rewrite sqrt_square; lra). apply sqrt_le_1; lra.
Qed.
(** For any other total the step is not the solution: the fixed point of the step is not
    an equilibrium of the chemistry. *)
Theorem terminator_other_total_refuted :
  exists x : vec species, 0 <= x X1 /\ 0 <= x X2 /\
    1 * x X2 - 1 * (x X1 * x X1) = 0 /\   (* chemical equilibrium for k1 = k2 = 1 *)
    euler_step_of 1 (terminator_analytical 1 1 1) x X1 <> x X1.
Proof.
  exists (fun v => match v with X1 => 1 | X2 => 1 end). repeat split; try lra.
  rewrite euler_of. unfold terminator_analytical. intros H.
  assert (S : terminator_source 1 1 1 (fun v => match v with X1 => 1 | X2 => 1 end) = 0) by lra.
  assert (D : 1 / 4 <= dd 1 1 <= 1 / 3).
  { unfold dd, rr, X_T. split.
    - replace (1/4) with (sqrt ((1/4) * (1/4))) at 1 by (rewrite sqrt_square; lra). apply sqrt_le_1; lra.
    - replace (1/3) with (sqrt ((1/3) * (1/3))) by (rewrite sqrt_square; lra). apply sqrt_le_1; lra. }
  assert (U : terminator_unlimited 1 1 1 (fun v => match v with X1 => 1 | X2 => 1 end) < 0).
  { unfold terminator_unlimited. change (4 / 1000000) with X_T. change (1 / (4 * 1)) with (rr 1 1).
    change (sqrt (rr 1 1 * rr 1 1 + 2 * X_T * rr 1 1)) with (dd 1 1). set (d := dd 1 1) in *.
    set (e := exp (-4 * 1 * d * 1)).
    assert (E : 0 < e < 1). { unfold e. split; [apply exp_pos|]. assert (I : exp (-4 * 1 * d * 1) < exp 0) by (apply exp_increasing; lra). rewrite exp_0 in I. exact I. }
    rewrite Rabs_pos_eq by lra. unfold cond. destruct (Rlt_dec _ _); [|lra].
    set (e1 := (1 - e) / (d * 1)). assert (E1 : 0 < e1). { unfold e1. apply Rdiv_lt_0_compat; lra. }
    unfold rr. set (q := 1 + e + 1 * e1 * (1 + 1 / (4 * 1))). assert (0 < q) by (unfold q; lra).
    assert (0 < e1 * (1 - d + 1 / (4 * 1)) * (1 + d + 1 / (4 * 1)) / q).
    { apply Rdiv_lt_0_compat; auto. apply Rmult_lt_0_compat; [apply Rmult_lt_0_compat|]; lra. }
    unfold Rdiv in *. lra. }
  unfold terminator_source, cond in S. set (s := terminator_unlimited _ _ _ _) in *.
  destruct (Rlt_dec s 0); [|lra]. unfold Rmax in S. destruct (Rle_dec s (- (1) / 1)); lra.
Qed.
Print Assumptions terminator_step_exact.
