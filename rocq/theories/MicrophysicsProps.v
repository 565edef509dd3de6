(** Theorems about the moist physics schemes and chemistry: C44, C45, C48, C49. *)
From Verif Require Import Base Vec RK RKSpec RKFacts RKProps Thermo ThermoProps Microphysics.
Open Scope R_scope.

Lemma euler_of : forall {I} dt (r : vec I -> vec I) x v, euler_step_of dt r x v = x v - dt * r x v.
Proof.
  intros. unfold euler_step_of, apply_increment, apply_cycles, increment_cycle, increment_stage, rhs_physics_then_limit. simpl.
  unfold axpy, upd, tab_ForwardEuler, table. simpl. vunfold. ring.
Qed.
Lemma euler : forall dt r x v, euler_step dt r x v = x v - dt * r x v.
Proof. intros. apply (euler_of dt r x v). Qed.

(** ** C44.  Water is exchanged, never created.  The total is vapour + cloud + rain. *)
Definition total_water (x : state) : R := x Vapour + x Cloud + x Rain.
Lemma total_water_linear : linear_fun total_water.
Proof. split; intros; unfold total_water; vunfold; ring. Qed.

(** Each moist process conserves total water in every state, with every explicit
    Runge-Kutta scheme in increment form (butcher matrix A, s stages, n subcycles), for
    every parameter set, density, time step and choice of options. *)
Section Conserve.
  Variables (A : nat -> nat -> R) (s : nat) (n : nat) (store : nat -> state) (h : R) (x : state).
  Hypothesis Hs : (0 < s)%nat.
  Definition run_scheme (residual : state -> state) : state :=
    apply_increment A s (fun x => x) h (fun _ => vzero) (tendency residual) n store x.
  Lemma conserves : forall residual l, linear_fun l -> (forall y, l (residual y) = 0) -> l (run_scheme residual) = l x.
  Proof.
    intros r l Hl Hr. apply linear_invariants_preserved; auto.
    - intros z. replace (@vzero var) with (0 *v z) by vring. rewrite (proj2 Hl). ring.
    - intros z. unfold tendency. replace (fun v => - r z v) with ((-1) *v r z) by vring. rewrite (proj2 Hl), Hr. ring.
  Qed.
End Conserve.
Theorem water_conserved : forall A s n store h x, (0 < s)%nat ->
  (forall P lat dt rho, total_water (run_scheme A s n store h x (saturation_adjustment P lat dt rho)) = total_water x) /\
  (forall P lat dt rho, total_water (run_scheme A s n store h x (evaporation_of_rain P lat dt rho)) = total_water x) /\
  (forall accr accu dt, total_water (run_scheme A s n store h x (coalescence accr accu dt)) = total_water x) /\
  (forall comp fb gamma_r tau sat dt r, instant_rain comp fb true gamma_r tau sat dt = Ok r ->
     total_water (run_scheme A s n store h x r) = total_water x) /\
  (forall b1 b2 gamma_v tau sat dt, total_water (run_scheme A s n store h x (sw_saturation_adjustment b1 b2 gamma_v tau sat dt)) = total_water x).
Proof.
  intros A s n store h x Hs. repeat split; intros; apply conserves; auto using total_water_linear; intros y; unfold total_water.
  - unfold saturation_adjustment. ring.
  - unfold evaporation_of_rain. ring.
  - unfold coalescence. ring.
  - unfold instant_rain in H. destruct (fb && negb (Nat.eqb comp 1)); [discriminate|]. inversion H. ring.
  - unfold sw_saturation_adjustment. ring.
Qed.
(** Shallow water feedbacks: depth and buoyancy change in proportion to the vapour, so
    D - beta1 q_v and b - beta2 q_v are unchanged. *)
Theorem sw_feedback_invariants : forall A s n store h x, (0 < s)%nat ->
  forall b1 b2 gamma_v tau sat dt,
    let y := run_scheme A s n store h x (sw_saturation_adjustment (Some b1) (Some b2) gamma_v tau sat dt) in
    y Depth - b1 * y Vapour = x Depth - b1 * x Vapour /\ y Buoyancy - b2 * y Vapour = x Buoyancy - b2 * x Vapour.
Proof.
  intros A s n store h x Hs b1 b2 gv tau sat dt y. split.
  - apply (conserves A s n store h x Hs _ (fun z => z Depth - b1 * z Vapour)).
    + split; intros; vunfold; ring.
    + intros z. unfold sw_saturation_adjustment. ring.
  - apply (conserves A s n store h x Hs _ (fun z => z Buoyancy - b2 * z Vapour)).
    + split; intros; vunfold; ring.
    + intros z. unfold sw_saturation_adjustment. ring.
Qed.
(** Instant rain with convective feedback cannot be constructed on any mixed space. *)
Theorem instant_rain_feedback_refuted : forall comp rain gamma_r tau sat dt, (1 < comp)%nat ->
  instant_rain comp true rain gamma_r tau sat dt = Err ValueError.
Proof. intros comp rain g tau sat dt H. unfold instant_rain. destruct (Nat.eqb_spec comp 1); [lia|]. reflexivity. Qed.

(** ** C45.  Non-negativity of one Euler step with the scheme's own time step *)
Lemma div_mul : forall a dt, 0 < dt -> dt * (a / dt) = a.
Proof. intros. field. lra. Qed.
Lemma limited_exchange : forall dt r a b, 0 < dt -> 0 <= a -> 0 <= b ->
  let q := cond r 0 (Rmax r (- b / dt)) (Rmin r (a / dt)) in - b <= dt * q <= a.
Proof.
  intros dt r a b Hdt Ha Hb q. unfold q. clear q.
  pose proof (div_mul a dt Hdt) as Ea. pose proof (div_mul (- b) dt Hdt) as Eb.
  assert (NN : forall z w, z <= w -> dt * z <= dt * w) by (intros; apply Rmult_le_compat_l; lra).
  unfold cond. destruct (Rlt_dec r 0) as [N|N].
  - assert (dt * r <= dt * 0) by (apply NN; lra). unfold Rmax. destruct (Rle_dec r (- b / dt)) as [M|M]; [lra|].
    assert (dt * (- b / dt) <= dt * r) by (apply NN; lra). lra.
  - assert (dt * 0 <= dt * r) by (apply NN; lra). unfold Rmin. destruct (Rle_dec r (a / dt)) as [M|M]; [|lra].
    assert (dt * r <= dt * (a / dt)) by (apply NN; lra). lra.
Qed.
Theorem saturation_adjustment_nonneg : forall P lat dt rho x, 0 < dt -> 0 <= x Vapour -> 0 <= x Cloud ->
  let y := euler_step dt (saturation_adjustment P lat dt rho) x in 0 <= y Vapour /\ 0 <= y Cloud /\ y Rain = x Rain.
Proof.
  intros P lat dt rho x Hdt Hv Hc y. unfold y. rewrite !euler. unfold saturation_adjustment.
  pose proof (limited_exchange dt (sat_adj_unlimited P lat dt rho x) (x Vapour) (x Cloud) Hdt Hv Hc) as L.
  fold (sat_adj_rate P lat dt rho x) in L. simpl in L. lra.
Qed.
(** ... and moves vapour towards saturation without overshooting it. *)
Theorem saturation_adjustment_no_overshoot : forall P lat dt rho x, admissible P -> 0 < cp P -> 0 < dt ->
  0 <= x Vapour -> 0 <= x Cloud -> e_sat P (sa_T P rho x) < p_of P (sa_exner P rho x) ->
  let y := euler_step dt (saturation_adjustment P lat dt rho) x in let sat := sa_sat P rho x in
  (sat <= x Vapour -> sat <= y Vapour <= x Vapour) /\ (x Vapour <= sat -> x Vapour <= y Vapour <= sat).
Proof.
  intros P lat dt rho x A Hcp Hdt Hv Hc He y sat. unfold y. rewrite !euler. unfold saturation_adjustment.
  pose proof (r_sat_pos P A _ _ He) as HS. fold (sa_sat P rho x) in HS. fold sat in HS.
  (* the unlimited rate moves a fraction of the way *)
  assert (F : exists f, 0 <= f <= 1 /\ dt * sat_adj_unlimited P lat dt rho x = f * (x Vapour - sat)).
  { unfold sat_adj_unlimited. fold sat. destruct lat.
    - set (q := Lv P (sa_T P rho x) * Lv P (sa_T P rho x) * sat / (cp P * R_v P * (sa_T P rho x * sa_T P rho x))).
      assert (Q : 0 <= q).
      { unfold q. pose proof (ad_Rv P A) as Rv. set (L := Lv P (sa_T P rho x)). set (T := sa_T P rho x).
        destruct (Req_dec (T * T) 0) as [Z|Z].
        - rewrite Z, Rmult_0_r. unfold Rdiv. rewrite Rinv_0. lra.
        - pose proof (Rle_0_sqr T) as S1. unfold Rsqr in S1. pose proof (Rle_0_sqr L) as S2. unfold Rsqr in S2.
          apply Rmult_le_pos; [apply Rmult_le_pos; lra|]. left. apply Rinv_0_lt_compat.
          apply Rmult_lt_0_compat; [apply Rmult_lt_0_compat; auto|lra]. }
      exists (/ (1 + q)). split.
      + split; [left; apply Rinv_0_lt_compat; lra|]. rewrite <- Rinv_1. apply Rinv_le_contravar; lra.
      + field. split; lra.
    - exists 1. split; [lra|]. field. lra. }
  destruct F as [f [Hf E]].
  unfold sat_adj_rate. set (r := sat_adj_unlimited P lat dt rho x) in *.
  pose proof (div_mul (x Vapour) dt Hdt) as Ea. pose proof (div_mul (- x Cloud) dt Hdt) as Eb.
  assert (NN : forall z w, z <= w -> dt * z <= dt * w) by (intros; apply Rmult_le_compat_l; lra).
  split; intros Hsat.
  - assert (0 <= f * (x Vapour - sat) <= x Vapour - sat).
    { split; [apply Rmult_le_pos; lra|]. replace (x Vapour - sat) with (1 * (x Vapour - sat)) at 2 by ring. apply Rmult_le_compat_r; lra. }
    unfold cond. destruct (Rlt_dec r 0) as [N|N]. { assert (dt * r < 0) by nra. lra. }
    assert (dt * 0 <= dt * r) by (apply NN; lra).
    unfold Rmin. destruct (Rle_dec r (x Vapour / dt)) as [M|M]; [lra|].
    assert (dt * (x Vapour / dt) <= dt * r) by (apply NN; lra). lra.
  - assert (x Vapour - sat <= f * (x Vapour - sat) <= 0).
    { split; [|nra]. replace (x Vapour - sat) with (1 * (x Vapour - sat)) at 1 by ring. nra. }
    unfold cond. destruct (Rlt_dec r 0) as [N|N].
    + unfold Rmax. destruct (Rle_dec r (- x Cloud / dt)) as [M|M].
      * assert (dt * r <= dt * (- x Cloud / dt)) by (apply NN; lra). lra.
      * lra.
    + assert (dt * 0 <= dt * r) by (apply NN; lra). assert (dt * r = 0) by lra.
      assert (r = 0) by (apply Rmult_integral in H1; lra).
      unfold Rmin. destruct (Rle_dec r (x Vapour / dt)) as [M|M]; [lra|].
      assert (dt * (x Vapour / dt) <= dt * r) by (apply NN; lra). lra.
Qed.

Theorem coalescence_nonneg : forall accr accu dt x, 0 < dt -> 0 <= x Cloud -> 0 <= x Rain ->
  let y := euler_step dt (coalescence accr accu dt) x in 0 <= y Cloud /\ x Rain <= y Rain /\ y Cloud <= x Cloud /\ y Vapour = x Vapour.
Proof.
  intros accr accu dt x Hdt Hc Hr y. unfold y. rewrite !euler. unfold coalescence.
  assert (B : 0 <= dt * coalescence_rate accr accu dt x <= x Cloud).
  { unfold coalescence_rate.
    set (a := if accr then 0.001 * (x Cloud - 0.001) else 0).
    assert (U : 0 <= (if accu then 2.2 * x Cloud * pow (x Rain) 0.875 else 0)).
    { destruct accu; [|lra]. apply Rmult_le_pos; [lra|]. unfold pow. destruct (Rlt_dec 0 (x Rain)); [|lra]. left. apply exp_pos. }
    set (u := if accu then 2.2 * x Cloud * pow (x Rain) 0.875 else 0) in *.
    pose proof (div_mul (x Cloud) dt Hdt) as E.
    assert (NN : forall z w, z <= w -> dt * z <= dt * w) by (intros; apply Rmult_le_compat_l; lra).
    assert (MIN : forall q, 0 <= q -> 0 <= dt * Rmin q (x Cloud / dt) <= x Cloud).
    { intros q Hq. unfold Rmin. destruct (Rle_dec q (x Cloud / dt)) as [M|M]; [|rewrite E; lra].
      split; [|rewrite <- E; apply NN; auto]. replace 0 with (dt * 0) by ring. apply NN; auto. }
    unfold cond. destruct (Rlt_dec (x Rain) 0); [lra|]. destruct (Rlt_dec (a + u) 0); [lra|].
    destruct (Rlt_dec a 0); apply MIN; lra. }
  lra.
Qed.
(** Without accretion, and with both species negative (the scheme's own guard's case), the
    scheme converts rain back to cloud. *)
Theorem coalescence_reverses_refuted :
  exists dt x, 0 < dt /\ x Rain < 0 /\ coalescence_rate false true dt x < 0.
Proof.
  exists 1, (fun v => match v with Cloud => -1 | Rain => -1 | _ => 0 end). repeat split; try lra.
  unfold coalescence_rate, cond. destruct (Rlt_dec (-1) 0); [|lra]. destruct (Rlt_dec 0 0); [lra|]. unfold Rmin. destruct (Rle_dec 0 (-1 / 1)); lra.
Qed.

(** *** Evaporation of rain has the wrong sign: in every sub-saturated state with rain, for
    every time step, the scheme increases the rain and decreases the vapour. *)
Lemma evap_rate_pos : forall P dt rho x, admissible P -> 0 < dt -> 0 < rho -> 0 < x Rain ->
  e_sat P (sa_T P rho x) < p_of P (sa_exner P rho x) -> x Vapour < sa_sat P rho x ->
  0 < evap_rate P dt rho x.
Proof.
  intros P dt rho x A Hdt Hrho Hr He Hv. pose proof (r_sat_pos P A _ _ He) as HS. fold (sa_sat P rho x) in HS.
  pose proof (e_sat_pos P A (sa_T P rho x)) as ES.
  assert (U : 0 < evap_unlimited P rho x).
  { unfold evap_unlimited. assert (RR : 0 < rho * x Rain) by (apply Rmult_lt_0_compat; auto).
    assert (PW : forall a, 0 < pow (rho * x Rain) a). { intros a. unfold pow. destruct (Rlt_dec 0 (rho * x Rain)); [apply exp_pos|lra]. }
    apply Rdiv_lt_0_compat.
    - apply Rmult_lt_0_compat; auto. apply Rmult_lt_0_compat.
      + replace (1 - x Vapour / sa_sat P rho x) with ((sa_sat P rho x - x Vapour) / sa_sat P rho x) by (field; lra). apply Rdiv_lt_0_compat; lra.
      + pose proof (PW 0.2046). lra.
    - apply Rmult_lt_0_compat; auto.
      assert (0 < 2550000 / (p_of P (sa_exner P rho x) * sa_sat P rho x)); [|lra].
      apply Rdiv_lt_0_compat; [lra|]. apply Rmult_lt_0_compat; lra. }
  unfold evap_rate, cond. destruct (Rlt_dec (evap_unlimited P rho x) 0); [lra|]. destruct (Rlt_dec (x Rain) 0); [lra|].
  apply Rmin_glb_lt; auto. apply Rdiv_lt_0_compat; auto.
Qed.
Theorem rain_evaporation_sign_refuted : forall P lat dt rho x, admissible P -> 0 < dt -> 0 < rho -> 0 < x Rain ->
  e_sat P (sa_T P rho x) < p_of P (sa_exner P rho x) -> x Vapour < sa_sat P rho x ->
  let y := euler_step dt (evaporation_of_rain P lat dt rho) x in x Rain < y Rain /\ y Vapour < x Vapour.
Proof.
  intros P lat dt rho x A Hdt Hrho Hr He Hv y. unfold y. rewrite !euler. unfold evaporation_of_rain.
  pose proof (evap_rate_pos P dt rho x A Hdt Hrho Hr He Hv).
  assert (0 < dt * evap_rate P dt rho x) by (apply Rmult_lt_0_compat; auto). lra.
Qed.
(** a state satisfying these hypotheses without vapour: the step makes vapour negative *)
Definition dry_rainy : state := fun v => match v with Rain => 1 | Theta => 273.15 | _ => 0 end.
Definition dry_rho : R := 100000 / (287 * 273.15).
Lemma dry_rainy_ok : e_sat default_params (sa_T default_params dry_rho dry_rainy) < p_of default_params (sa_exner default_params dry_rho dry_rainy)
  /\ sa_T default_params dry_rho dry_rainy = 273.15 /\ p_of default_params (sa_exner default_params dry_rho dry_rainy) = 100000.
Proof.
  assert (EX : sa_exner default_params dry_rho dry_rainy = 1).
  { unfold sa_exner, exner_pressure, dry_rho, dry_rainy. simpl R_d. simpl p_0.
    replace (100000 / (287 * 273.15) * 287 * 273.15 / 100000) with 1 by lra.
    unfold Rpower. rewrite ln_1, Rmult_0_r, exp_0. auto. }
  assert (PE : p_of default_params (sa_exner default_params dry_rho dry_rainy) = 100000).
  { rewrite EX. unfold p_of, Rpower. rewrite ln_1, Rmult_0_r, exp_0. simpl. lra. }
  assert (TE : sa_T default_params dry_rho dry_rainy = 273.15).
  { unfold sa_T. rewrite EX. unfold T_of, dry_rainy. simpl. lra. }
  rewrite TE, PE. repeat split; auto. pose proof default_state as D. simpl in D. exact D.
Qed.
Theorem rain_evaporation_negative_refuted :
  let y := euler_step 1 (evaporation_of_rain default_params true 1 dry_rho) dry_rainy in
  0 <= dry_rainy Vapour /\ 0 <= dry_rainy Rain /\ y Vapour < 0.
Proof.
  destruct dry_rainy_ok as [H _].
  assert (RH0 : 0 < dry_rho). { unfold dry_rho. lra. }
  pose proof (r_sat_pos default_params default_admissible _ _ H) as S. fold (sa_sat default_params dry_rho dry_rainy) in S.
  assert (R1 : 0 < dry_rainy Rain) by (unfold dry_rainy; lra).
  assert (V0 : dry_rainy Vapour = 0) by reflexivity.
  assert (V1 : dry_rainy Vapour < sa_sat default_params dry_rho dry_rainy) by (rewrite V0; exact S).
  destruct (rain_evaporation_sign_refuted default_params true 1 dry_rho dry_rainy default_admissible Rlt_0_1 RH0 R1 H V1) as [_ E].
  rewrite V0 in E. split; [rewrite V0; lra|split; [lra|exact E]].
Qed.
(** what does hold: rain is never made negative, and the amount exchanged never exceeds the rain present *)
Theorem rain_evaporation_bounded_partial : forall P lat dt rho x, 0 < dt -> 0 <= x Rain ->
  let y := euler_step dt (evaporation_of_rain P lat dt rho) x in x Rain <= y Rain <= 2 * x Rain /\ y Cloud = x Cloud.
Proof.
  intros P lat dt rho x Hdt Hr y. unfold y. rewrite !euler. unfold evaporation_of_rain, evap_rate, cond.
  pose proof (div_mul (x Rain) dt Hdt) as E.
  destruct (Rlt_dec (evap_unlimited P rho x) 0); [lra|]. destruct (Rlt_dec (x Rain) 0); [lra|].
  unfold Rmin. destruct (Rle_dec (evap_unlimited P rho x) (x Rain / dt)) as [M|M].
  - assert (dt * evap_unlimited P rho x <= dt * (x Rain / dt)) by (apply Rmult_le_compat_l; lra).
    assert (0 <= dt * evap_unlimited P rho x) by (apply Rmult_le_pos; lra). lra.
  - lra.
Qed.

(** Instant rain: non-negative, and never below saturation, if tau >= gamma_r dt *)
Theorem instant_rain_nonneg_partial : forall comp fb rain gamma_r tau sat dt r x,
  instant_rain comp fb rain gamma_r tau sat dt = Ok r -> 0 < dt -> 0 <= gamma_r ->
  gamma_r * dt <= match tau with Some t => t | None => dt end -> 0 < match tau with Some t => t | None => dt end ->
  let y := euler_step dt r x in
  (sat < x Vapour -> sat <= y Vapour <= x Vapour) /\ (x Vapour <= sat -> y Vapour = x Vapour) /\ x Rain <= y Rain.
Proof.
  intros comp fb rain g tau sat dt r x H Hdt Hg Hle Htau y. unfold y. rewrite !euler.
  unfold instant_rain in H. destruct (fb && negb (Nat.eqb comp 1)); [discriminate|]. inversion H. clear H H1 y r.
  unfold instant_rain_rate. set (t := match tau with Some t => t | None => dt end) in *.
  unfold cond. destruct (Rlt_dec sat (x Vapour)) as [L|L].
  - set (f := dt * (1 / t * g)). assert (F : 0 <= f <= 1).
    { unfold f. assert (E : dt * (1 / t * g) = g * dt / t) by (field; lra). rewrite E. split.
      - apply Rmult_le_pos; [apply Rmult_le_pos; lra|]. left; apply Rinv_0_lt_compat; auto.
      - apply (Rmult_le_reg_r t); auto. unfold Rdiv. rewrite Rmult_assoc, Rinv_l by lra. lra. }
    assert (E : dt * (1 / t * g * (x Vapour - sat)) = f * (x Vapour - sat)) by (unfold f; ring).
    assert (B : 0 <= f * (x Vapour - sat) <= x Vapour - sat).
    { split; [apply Rmult_le_pos; lra|]. replace (x Vapour - sat) with (1 * (x Vapour - sat)) at 2 by ring. apply Rmult_le_compat_r; lra. }
    rewrite E. repeat split; try lra. destruct rain; [|lra].
    replace (dt * - (1 / t * g * (x Vapour - sat))) with (- (dt * (1 / t * g * (x Vapour - sat)))) by ring. rewrite E. lra.
  - repeat split; try lra. destruct rain; lra.
Qed.
Theorem instant_rain_short_tau_refuted :
  exists r x, instant_rain 2 false true 1 (Some (1/4)) 1 1 = Ok r /\ 0 <= x Vapour /\ euler_step 1 r x Vapour < 0.
Proof.
  eexists _, (fun _ => 2). split; [reflexivity|]. split; [lra|]. rewrite euler. unfold instant_rain_rate, cond.
  destruct (Rlt_dec 1 2); lra.
Qed.

(** Shallow water saturation adjustment: non-negative if tau >= dt (in particular by default) *)
Theorem sw_saturation_nonneg_partial : forall b1 b2 gamma_v tau sat dt x, 0 < dt ->
  dt <= match tau with Some t => t | None => dt end -> 0 <= x Vapour -> 0 <= x Cloud ->
  let y := euler_step dt (sw_saturation_adjustment b1 b2 gamma_v tau sat dt) x in 0 <= y Vapour /\ 0 <= y Cloud.
Proof.
  intros b1 b2 g tau sat dt x Hdt Hle Hv Hc y. unfold y. rewrite !euler. unfold sw_saturation_adjustment, sw_rate.
  set (t := match tau with Some t => t | None => dt end) in *. assert (Ht : 0 < t) by lra.
  assert (Fv : dt * (x Vapour / t) <= x Vapour).
  { replace (dt * (x Vapour / t)) with ((dt / t) * x Vapour) by (field; lra). rewrite <- (Rmult_1_l (x Vapour)) at 2.
    apply Rmult_le_compat_r; auto. apply (Rmult_le_reg_r t); auto. unfold Rdiv. rewrite Rmult_assoc, Rinv_l by lra. lra. }
  assert (Fc : - x Cloud <= dt * (- x Cloud / t)).
  { replace (dt * (- x Cloud / t)) with (- ((dt / t) * x Cloud)) by (field; lra). apply Ropp_le_contravar. rewrite <- (Rmult_1_l (x Cloud)) at 2.
    apply Rmult_le_compat_r; auto. apply (Rmult_le_reg_r t); auto. unfold Rdiv. rewrite Rmult_assoc, Rinv_l by lra. lra. }
  assert (Z1 : 0 <= x Vapour / t) by (apply Rmult_le_pos; [lra|left; apply Rinv_0_lt_compat; auto]).
  assert (Z2 : - x Cloud / t <= 0).
  { replace (- x Cloud / t) with (- (x Cloud / t)) by (field; lra). assert (0 <= x Cloud / t); [|lra]. apply Rmult_le_pos; [lra|left; apply Rinv_0_lt_compat; auto]. }
  set (q := Rmax (Rmin (g * (x Vapour - sat x) / t) (x Vapour / t)) (- x Cloud / t)).
  assert (Q : - x Cloud / t <= q <= x Vapour / t).
  { unfold q, Rmin, Rmax. destruct (Rle_dec (g * (x Vapour - sat x) / t) (x Vapour / t)); destruct (Rle_dec _ (- x Cloud / t)); lra. }
  assert (NN : forall z w, z <= w -> dt * z <= dt * w) by (intros; apply Rmult_le_compat_l; lra).
  pose proof (NN _ _ (proj1 Q)). pose proof (NN _ _ (proj2 Q)). lra.
Qed.
Theorem sw_saturation_short_tau_refuted :
  exists x, 0 <= x Vapour /\ 0 <= x Cloud /\ euler_step 1 (sw_saturation_adjustment None None 1 (Some (1/4)) (fun _ => 1) 1) x Vapour < 0.
Proof.
  exists (fun v => match v with Vapour => 2 | _ => 0 end). repeat split; try lra. rewrite euler. unfold sw_saturation_adjustment, sw_rate.
  unfold Rmin. destruct (Rle_dec _ (2 / (1/4))); unfold Rmax; destruct (Rle_dec _ _); lra.
Qed.

(** ** C48.  Terminator chemistry *)
Definition total_chlorine (x : vec species) : R := x X1 + 2 * x X2.
Theorem terminator_conserves : forall A s n store h x, (0 < s)%nat ->
  (forall k1 k2, total_chlorine (apply_increment A s (fun x => x) h (fun _ => vzero) (fun y v => - terminator_residual k1 k2 y v) n store x) = total_chlorine x) /\
  (forall k1 k2 dt, total_chlorine (apply_increment A s (fun x => x) h (fun _ => vzero) (fun y v => - terminator_analytical k1 k2 dt y v) n store x) = total_chlorine x).
Proof.
  intros A s n store h x Hs.
  assert (LIN : linear_fun total_chlorine) by (split; intros; unfold total_chlorine; vunfold; ring).
  split; intros; apply linear_invariants_preserved; auto; intros z; unfold total_chlorine; vunfold; try ring.
  - unfold terminator_residual. ring.
  - unfold terminator_analytical. field.
Qed.
Theorem terminator_nonneg : forall k1 k2 dt x, 0 < dt -> 0 <= x X1 -> 0 <= x X2 ->
  let y := euler_step_of dt (terminator_analytical k1 k2 dt) x in 0 <= y X1 /\ 0 <= y X2.
Proof.
  intros k1 k2 dt x Hdt H1 H2 y. unfold y. rewrite !euler_of. unfold terminator_analytical, terminator_source.
  assert (Z : 0 <= 2 * x X2) by lra.
  pose proof (limited_exchange dt (terminator_unlimited k1 k2 dt x) (2 * x X2) (x X1) Hdt Z H1) as L. simpl in L.
  set (q := cond _ _ _ _) in *. replace (dt * - (- q / 2)) with (dt * q / 2) by field. lra.
Qed.

(** ** C49.  SourceSink subtracts its rate instead of adding it. *)
Theorem source_sink_sign_refuted : forall I dt (rate x : vec I) v, euler_step_of dt (source_sink rate) x v = x v - dt * rate v.
Proof. intros. apply euler_of. Qed.
Theorem source_sink_decreases_refuted : forall I dt (rate x : vec I) v, 0 < dt -> 0 < rate v -> euler_step_of dt (source_sink rate) x v < x v.
Proof. intros. rewrite euler_of. unfold source_sink. assert (0 < dt * rate v) by (apply Rmult_lt_0_compat; auto). lra. Qed.
(** With the opposite sign convention the rate is integrated exactly by every consistent
    explicit scheme over any number of subcycles. *)
Theorem source_sink_integrated_partial : forall I A s dt n store (rate x : vec I), (0 < s)%nat -> order1 A s ->
  apply_increment A s no_limiter dt (fun y v => - source_sink rate y v) no_physics n store x = x +v (INR n * dt) *v (fun v => - rate v).
Proof. intros. apply (constant_source_integrated I A s (fun v => - rate v)); auto. Qed.

Print Assumptions water_conserved.
Print Assumptions saturation_adjustment_no_overshoot.
Print Assumptions rain_evaporation_negative_refuted.
Print Assumptions terminator_nonneg.

(** No rain evaporates where there is none, nor more than there is. *)
Theorem evaporation_needs_rain : forall P lat dt rho x, 0 < dt -> 
  (x Rain <= 0 -> forall v, evaporation_of_rain P lat dt rho x v = 0) /\ (0 <= x Rain -> 0 <= evap_rate P dt rho x <= x Rain / dt).
Proof.
  intros P lat dt rho x Hdt.
  split.
  - intros Hr v. assert (Z : evap_rate P dt rho x = 0).
    { unfold evap_rate, cond. destruct (Rlt_dec (evap_unlimited P rho x) 0); [reflexivity|]. destruct (Rlt_dec (x Rain) 0); [reflexivity|].
      assert (x Rain = 0) as -> by lra. replace (0 / dt) with 0 by (unfold Rdiv; ring). unfold Rmin. destruct (Rle_dec (evap_unlimited P rho x) 0); lra. }
    unfold evaporation_of_rain. destruct v; rewrite ?Z; try ring. destruct lat; ring.
  - intros Hr. assert (D : 0 <= x Rain / dt) by (apply Rmult_le_pos; [exact Hr|left; apply Rinv_0_lt_compat; exact Hdt]).
    unfold evap_rate, cond. destruct (Rlt_dec (evap_unlimited P rho x) 0); [lra|]. destruct (Rlt_dec (x Rain) 0); [lra|].
    unfold Rmin. destruct (Rle_dec (evap_unlimited P rho x) (x Rain / dt)); lra.
Qed.
Print Assumptions evaporation_needs_rain.
(** Where there is cloud water, coalescence never runs backwards and never uses more than there is, whatever the sign of
    the rain. *)
Theorem coalescence_forward : forall accr accu dt x, 0 < dt -> 0 <= x Cloud -> 0 <= coalescence_rate accr accu dt x <= x Cloud / dt.
Proof.
  intros accr accu dt x Hdt Hc. assert (D : 0 <= x Cloud / dt) by (apply Rmult_le_pos; [exact Hc|left; apply Rinv_0_lt_compat; exact Hdt]).
  unfold coalescence_rate. set (a := if accr then 0.001 * (x Cloud - 0.001) else 0).
  assert (U : 0 <= (if accu then 2.2 * x Cloud * pow (x Rain) 0.875 else 0)).
  { destruct accu; [|lra]. apply Rmult_le_pos; [lra|]. unfold pow. destruct (Rlt_dec 0 (x Rain)); [|lra]. left. apply exp_pos. }
  set (u := if accu then 2.2 * x Cloud * pow (x Rain) 0.875 else 0) in *.
  assert (MIN : forall q, 0 <= q -> 0 <= Rmin q (x Cloud / dt) <= x Cloud / dt).
  { intros q Hq. unfold Rmin. destruct (Rle_dec q (x Cloud / dt)); lra. }
  unfold cond. destruct (Rlt_dec (x Rain) 0).
  - destruct (Rlt_dec a 0); [lra|]. apply MIN; lra.
  - destruct (Rlt_dec (a + u) 0); [lra|]. destruct (Rlt_dec a 0); apply MIN; lra.
Qed.
Print Assumptions coalescence_forward.
