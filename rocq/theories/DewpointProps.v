(** C121: the dewpoint diagnostic. *)
From Coq Require Import Reals Lra Lia List.
From Verif Require Import Base Vec Thermo ThermoProps Diagnostics DiagnosticsProps DiagPoint.
Open Scope R_scope.

(** The saturation curve is that of air: positive, increasing with temperature above the pole w_sat3 of the formula *)
Record saturation_curve (P : cparams) : Prop := { sc_ad : admissible P; sc_w2 : w_sat2 P < 0; sc_w3 : w_sat3 P < T_0 P }.
Example default_saturation_curve : saturation_curve default_params.
Proof. split; [exact default_admissible| |]; cbn; lra. Qed.

Section Saturation.
Variable P : cparams.
Hypothesis A : saturation_curve P.
(** the constant of the slope: e_sat' = e_sat k / (T - w_sat3)^2 *)
Definition slope_k : R := - w_sat2 P * (T_0 P - w_sat3 P).
Lemma slope_k_pos : 0 < slope_k.
Proof. unfold slope_k. apply Rmult_lt_0_compat; [pose proof (sc_w2 P A)|pose proof (sc_w3 P A)]; lra. Qed.
Lemma w4_pos : 0 < w_sat4 P. Proof. exact (ad_w4 P (sc_ad P A)). Qed.
Lemma eps_pos : 0 < R_d P / R_v P. Proof. apply Rdiv_lt_0_compat; [exact (ad_Rd P (sc_ad P A))|exact (ad_Rv P (sc_ad P A))]. Qed.
Lemma es_pos T : 0 < e_sat P T. Proof. apply e_sat_pos. exact (sc_ad P A). Qed.
Lemma es_form T : w_sat3 P < T -> e_sat P T = w_sat4 P * exp (- w_sat2 P - slope_k / (T - w_sat3 P)).
Proof. intros H. unfold e_sat, slope_k. f_equal. f_equal. field. lra. Qed.
Lemma es_incr x y : w_sat3 P < x -> x < y -> e_sat P x < e_sat P y.
Proof. intros. apply e_sat_increasing_gen; try assumption; [exact w4_pos|exact (sc_w2 P A)|exact (sc_w3 P A)]. Qed.
Lemma es_incr_le x y : w_sat3 P < x -> x <= y -> e_sat P x <= e_sat P y.
Proof. intros H [L|E]; [left; apply es_incr; assumption|subst; right; reflexivity]. Qed.
Lemma exp_ge x : 1 + x <= exp x.
Proof. destruct (Req_dec x 0) as [-> |N]; [rewrite exp_0; lra|left; apply exp_ineq1; exact N]. Qed.
Lemma exp_slope s t : exp s * (t - s) <= exp t - exp s <= exp t * (t - s).
Proof.
  split.
  - replace (exp t) with (exp s * exp (t - s)) by (rewrite <- exp_plus; f_equal; ring). pose proof (exp_ge (t - s)). pose proof (exp_pos s). nra.
  - replace (exp s) with (exp t * exp (s - t)) at 1 by (rewrite <- exp_plus; f_equal; ring). pose proof (exp_ge (s - t)). pose proof (exp_pos t). nra.
Qed.
Lemma es_slope x y : w_sat3 P < x -> w_sat3 P < y ->
  e_sat P x * (slope_k * (y - x) / ((x - w_sat3 P) * (y - w_sat3 P))) <= e_sat P y - e_sat P x <= e_sat P y * (slope_k * (y - x) / ((x - w_sat3 P) * (y - w_sat3 P))).
Proof.
  intros Hx Hy. rewrite !es_form by assumption. set (s := - w_sat2 P - slope_k / (x - w_sat3 P)). set (t := - w_sat2 P - slope_k / (y - w_sat3 P)).
  replace (slope_k * (y - x) / ((x - w_sat3 P) * (y - w_sat3 P))) with (t - s) by (unfold s, t; field; lra).
  destruct (exp_slope s t) as [L U]. pose proof w4_pos as W. split.
  - replace (w_sat4 P * exp s * (t - s)) with (w_sat4 P * (exp s * (t - s))) by ring. replace (w_sat4 P * exp t - w_sat4 P * exp s) with (w_sat4 P * (exp t - exp s)) by ring. apply Rmult_le_compat_l; lra.
  - replace (w_sat4 P * exp t * (t - s)) with (w_sat4 P * (exp t * (t - s))) by ring. replace (w_sat4 P * exp t - w_sat4 P * exp s) with (w_sat4 P * (exp t - exp s)) by ring. apply Rmult_le_compat_l; lra.
Qed.
Lemma rs_diff x y p : e_sat P x < p -> e_sat P y < p -> r_sat P y p - r_sat P x p = R_d P / R_v P * p * (e_sat P y - e_sat P x) / ((p - e_sat P y) * (p - e_sat P x)).
Proof. intros. unfold r_sat. field. split; [|split; [lra|lra]]. pose proof (ad_Rv P (sc_ad P A)). lra. Qed.
Lemma rs_incr x y p : w_sat3 P < x -> x < y -> e_sat P y < p -> r_sat P x p < r_sat P y p.
Proof.
  intros Hx Hy Hp. pose proof (es_incr x y Hx Hy) as E. pose proof (es_pos x) as E0. assert (D : 0 < r_sat P y p - r_sat P x p); [|lra].
  rewrite rs_diff by lra. apply Rdiv_lt_0_compat; [|apply Rmult_lt_0_compat; lra]. apply Rmult_lt_0_compat; [|lra]. apply Rmult_lt_0_compat; [exact eps_pos|lra].
Qed.
(** bounds of the slope of r_sat between the dewpoint and the temperature *)
Definition slope_min (Td T p : R) : R := R_d P / R_v P * p * e_sat P Td * slope_k / ((p - e_sat P Td) ^ 2 * (T - w_sat3 P) ^ 2).
Definition slope_max (Td T p : R) : R := R_d P / R_v P * p * e_sat P T * slope_k / ((p - e_sat P T) ^ 2 * (Td - w_sat3 P) ^ 2).
Lemma frac_le a b c d : 0 <= a -> a <= b -> 0 < d -> d <= c -> a / c <= b / d.
Proof. intros. unfold Rdiv. apply Rmult_le_compat; [lra|left; apply Rinv_0_lt_compat; lra|lra|apply Rinv_le_contravar; lra]. Qed.
Lemma sq_le a b : 0 <= a -> a <= b -> a ^ 2 <= b ^ 2. Proof. intros. simpl. nra. Qed.
Lemma prod_le a b c d : 0 <= a -> 0 <= c -> a <= b -> c <= d -> a * c <= b * d.
Proof. intros. apply Rmult_le_compat; assumption. Qed.
Lemma rs_slope Td x y T p : w_sat3 P < Td -> Td <= x -> x <= y -> y <= T -> e_sat P T < p ->
  slope_min Td T p * (y - x) <= r_sat P y p - r_sat P x p <= slope_max Td T p * (y - x).
Proof.
  intros Hd Hx Hxy Hy Hp. pose proof (es_incr_le Td x Hd Hx) as E1. pose proof (es_incr_le x y ltac:(lra) Hxy) as E2. pose proof (es_incr_le y T ltac:(lra) Hy) as E3.
  pose proof (es_pos Td) as E0. rewrite rs_diff by lra. destruct (es_slope x y ltac:(lra) ltac:(lra)) as [L U]. pose proof eps_pos as HE. pose proof slope_k_pos as HK.
  set (ex := e_sat P x) in *. set (ey := e_sat P y) in *. set (ed := e_sat P Td) in *. set (et := e_sat P T) in *. set (w := w_sat3 P) in *.
  assert (Q : 0 <= y - x) by lra. set (eps := R_d P / R_v P) in *.
  assert (Z : 0 < (x - w) * (y - w)) by (apply Rmult_lt_0_compat; lra). assert (Y : 0 < (p - ey) * (p - ex)) by (apply Rmult_lt_0_compat; lra).
  assert (Hp0 : 0 < p) by lra.
  split.
  - apply Rle_trans with (eps * p * (ex * (slope_k * (y - x) / ((x - w) * (y - w)))) / ((p - ey) * (p - ex))).
    + unfold slope_min. fold ed eps w.
      replace (eps * p * ed * slope_k / ((p - ed) ^ 2 * (T - w) ^ 2) * (y - x)) with (eps * p * slope_k * (y - x) * (ed / ((p - ed) ^ 2 * (T - w) ^ 2))) by (field; split; lra).
      replace (eps * p * (ex * (slope_k * (y - x) / ((x - w) * (y - w)))) / ((p - ey) * (p - ex))) with (eps * p * slope_k * (y - x) * (ex / ((p - ey) * (p - ex) * ((x - w) * (y - w))))) by (field; repeat split; lra).
      apply Rmult_le_compat_l.
      { apply Rmult_le_pos; [left; apply Rmult_lt_0_compat; [apply Rmult_lt_0_compat|]|]; assumption. }
      apply frac_le; [lra|lra|apply Rmult_lt_0_compat; assumption|]. apply prod_le; [lra|lra| |].
      * replace ((p - ed) ^ 2) with ((p - ed) * (p - ed)) by ring. apply prod_le; lra.
      * replace ((T - w) ^ 2) with ((T - w) * (T - w)) by ring. apply prod_le; lra.
    + unfold Rdiv at 1 3. apply Rmult_le_compat_r; [left; apply Rinv_0_lt_compat; exact Y|]. apply Rmult_le_compat_l; [apply Rmult_le_pos; lra|exact L].
  - apply Rle_trans with (eps * p * (ey * (slope_k * (y - x) / ((x - w) * (y - w)))) / ((p - ey) * (p - ex))).
    + unfold Rdiv at 1 3. apply Rmult_le_compat_r; [left; apply Rinv_0_lt_compat; exact Y|]. apply Rmult_le_compat_l; [apply Rmult_le_pos; lra|exact U].
    + unfold slope_max. fold et eps w.
      replace (eps * p * et * slope_k / ((p - et) ^ 2 * (Td - w) ^ 2) * (y - x)) with (eps * p * slope_k * (y - x) * (et / ((p - et) ^ 2 * (Td - w) ^ 2))) by (field; split; lra).
      replace (eps * p * (ey * (slope_k * (y - x) / ((x - w) * (y - w)))) / ((p - ey) * (p - ex))) with (eps * p * slope_k * (y - x) * (ey / ((p - ey) * (p - ex) * ((x - w) * (y - w))))) by (field; repeat split; lra).
      apply Rmult_le_compat_l.
      { apply Rmult_le_pos; [left; apply Rmult_lt_0_compat; [apply Rmult_lt_0_compat|]|]; assumption. }
      assert (0 < (p - et) ^ 2) by (apply pow_lt; lra). assert (0 < (Td - w) ^ 2) by (apply pow_lt; lra).
      apply frac_le; [lra|lra|apply Rmult_lt_0_compat; assumption|]. apply prod_le; [lra|lra| |].
      * replace ((p - et) ^ 2) with ((p - et) * (p - et)) by ring. apply prod_le; lra.
      * replace ((Td - w) ^ 2) with ((Td - w) * (Td - w)) by ring. apply prod_le; lra.
Qed.

(** ** C121 *)
(** The air would be saturated at the dewpoint temperature *)
Definition is_dewpoint (s : air) (x : R) : Prop := w_sat3 P < x /\ e_sat P x < pressure_at P s /\ r_sat P x (pressure_at P s) = a_rv s.
(** Moist air that is not saturated has exactly one dewpoint, at most its temperature; ... *)
Theorem dewpoint_exists_unique : forall s, 0 < a_rv s -> w_sat3 P < temperature_at P s -> e_sat P (temperature_at P s) < pressure_at P s ->
  a_rv s <= r_sat P (temperature_at P s) (pressure_at P s) ->
  exists x, is_dewpoint s x /\ x <= temperature_at P s /\ (forall y, is_dewpoint s y -> y = x).
Proof.
  intros s Hr HT He Hs. set (T := temperature_at P s) in *. set (p := pressure_at P s) in *. set (r := a_rv s) in *. pose proof eps_pos as HE. set (eps := R_d P / R_v P) in *.
  pose proof (es_pos T) as E0. assert (Hp : 0 < p) by lra. set (e := p * r / (eps + r)). assert (He0 : 0 < e) by (apply Rdiv_lt_0_compat; [apply Rmult_lt_0_compat; assumption|lra]).
  assert (HeT : e <= e_sat P T).
  { unfold r_sat in Hs. fold eps in Hs. unfold e. apply (Rmult_le_reg_r (eps + r)); [lra|]. unfold Rdiv. rewrite Rmult_assoc, Rinv_l, Rmult_1_r by lra.
    apply (Rmult_le_compat_r (p - e_sat P T)) in Hs; [|lra]. unfold Rdiv in Hs. rewrite Rmult_assoc, Rinv_l, Rmult_1_r in Hs by lra. lra. }
  set (c := - w_sat2 P). assert (Hc : 0 < c) by (unfold c; pose proof (sc_w2 P A); lra). pose proof w4_pos as W. pose proof (sc_w3 P A) as W3.
  set (y := ln (e / w_sat4 P) / c). assert (Hy : y < 1).
  { unfold y. apply (Rmult_lt_reg_r c); [exact Hc|]. unfold Rdiv. rewrite Rmult_assoc, Rinv_l, Rmult_1_r, Rmult_1_l by lra. apply exp_lt_inv. rewrite exp_ln by (apply Rdiv_lt_0_compat; assumption).
    apply (Rmult_lt_reg_l (w_sat4 P)); [exact W|]. replace (w_sat4 P * (e * / w_sat4 P)) with e by (field; lra). eapply Rle_lt_trans; [exact HeT|]. rewrite es_form by exact HT.
    apply Rmult_lt_compat_l; [exact W|]. apply exp_increasing. fold c. assert (0 < slope_k / (T - w_sat3 P)) by (apply Rdiv_lt_0_compat; [exact slope_k_pos|lra]). lra. }
  set (x := (T_0 P - y * w_sat3 P) / (1 - y)). assert (Hx : x - w_sat3 P = (T_0 P - w_sat3 P) / (1 - y)) by (unfold x; field; lra).
  assert (Hx0 : 0 < x - w_sat3 P) by (rewrite Hx; apply Rdiv_lt_0_compat; lra).
  assert (Ex : e_sat P x = e).
  { unfold e_sat. replace (- w_sat2 P * (x - T_0 P) / (x - w_sat3 P)) with (ln (e / w_sat4 P)); [rewrite exp_ln by (apply Rdiv_lt_0_compat; assumption); field; lra|].
    replace (x - T_0 P) with ((x - w_sat3 P) - (T_0 P - w_sat3 P)) by ring. rewrite Hx. fold c. replace (ln (e / w_sat4 P)) with (c * y) by (unfold y; field; lra). field. split; lra. }
  assert (Hep : e < p). { unfold e. apply (Rmult_lt_reg_r (eps + r)); [lra|]. unfold Rdiv. rewrite Rmult_assoc, Rinv_l, Rmult_1_r by lra. nra. }
  assert (Hxd : is_dewpoint s x).
  { split; [lra|]. split; [rewrite Ex; exact Hep|]. fold p r. unfold r_sat. rewrite Ex. fold eps. replace (p - e) with (p * eps / (eps + r)) by (unfold e; field; lra). unfold e. field. lra. }
  exists x. split; [exact Hxd|]. split.
  - destruct (Rle_dec x T) as [L|L]; [exact L|]. exfalso. apply Rnot_le_lt in L. pose proof (es_incr T x HT L). rewrite Ex in *. lra.
  - intros z (Hz & Hez & Hrz). destruct Hxd as (_ & Hex & Hrx). destruct (Rtotal_order z x) as [L|[E|L]]; [|exact E|]; exfalso.
    + pose proof (rs_incr z x _ Hz L Hex). lra.
    + pose proof (rs_incr x z _ ltac:(lra) L Hez). lra.
Qed.
Definition dew_step gamma s (x : R) : R := (1 - gamma) * x + gamma * dewpoint_expr P s x.
Lemma dewpoint_pointwise {I} gamma n (s : I -> air) i : dewpoint P gamma n s i = niter n (dew_step gamma (s i)) (temperature_at P (s i)).
Proof.
  unfold dewpoint, iter_compute. set (f := iter_step gamma _).
  assert (Q : forall n (x : vec I), niter n f x i = niter n (dew_step gamma (s i)) (x i)). { clear n. induction n as [|n IH]; intros x; cbn [niter]; [reflexivity|]. rewrite IH. reflexivity. }
  apply Q.
Qed.
(** ... the iteration stops only there; ... *)
Theorem dewpoint_stationary : forall I gamma n (s : I -> air) i, gamma <> 0 -> temperature_at P (s i) <> 0 ->
  (forall x, dew_step gamma (s i) x = x <-> r_sat P x (pressure_at P (s i)) = a_rv (s i)) /\
  dewpoint P gamma (S n) s i = dew_step gamma (s i) (dewpoint P gamma n s i).
Proof.
  intros I gamma n s i Hg HT. split.
  - intros x. unfold dew_step, dewpoint_expr. split; intros H.
    + assert (E : gamma * (temperature_at P (s i) * (r_sat P x (pressure_at P (s i)) - a_rv (s i))) = 0) by lra. apply Rmult_integral in E as [E|E]; [contradiction|]. apply Rmult_integral in E as [E|E]; [contradiction|lra].
    + rewrite H. ring.
  - rewrite !dewpoint_pointwise. generalize (temperature_at P (s i)) as x. induction n as [|n IH]; intros x; [reflexivity|]. cbn [niter] in *. rewrite <- IH. reflexivity.
Qed.
(** ... if gamma T times the slope of the saturation curve is at most one, the values decrease from the temperature towards the dewpoint, and the
    error after n iterations is between the n-th powers given times the initial one. *)
Theorem dewpoint_error : forall I gamma n (s : I -> air) i Td, let T := temperature_at P (s i) in let p := pressure_at P (s i) in
  0 <= gamma -> 0 < T -> is_dewpoint (s i) Td -> Td <= T -> e_sat P T < p -> gamma * T * slope_max Td T p <= 1 ->
  Td <= dewpoint P gamma (S n) s i <= dewpoint P gamma n s i /\ dewpoint P gamma n s i <= T /\
  (1 - gamma * T * slope_max Td T p) ^ n * (T - Td) <= dewpoint P gamma n s i - Td <= (1 - gamma * T * slope_min Td T p) ^ n * (T - Td).
Proof.
  intros I gamma n s i Td T p Hg HT (Hd & Hed & Hrd) HTd HeT HL. fold p in Hed, Hrd.
  set (m := slope_min Td T p) in *. set (M := slope_max Td T p) in *. assert (HG : 0 <= gamma * T) by (apply Rmult_le_pos; lra).
  assert (Hm0 : 0 <= m). { unfold m, slope_min. pose proof (es_pos Td). pose proof eps_pos. pose proof slope_k_pos. left. apply Rdiv_lt_0_compat; [apply Rmult_lt_0_compat; [apply Rmult_lt_0_compat; [apply Rmult_lt_0_compat; [exact eps_pos|lra]|assumption]|assumption]|apply Rmult_lt_0_compat; apply pow_lt; lra]. }
  assert (ST : forall x, Td <= x <= T -> (1 - gamma * T * M) * (x - Td) <= dew_step gamma (s i) x - Td <= (1 - gamma * T * m) * (x - Td) /\ dew_step gamma (s i) x <= x).
  { intros x Hx. destruct (rs_slope Td Td x T p Hd (Rle_refl _) (proj1 Hx) (proj2 Hx) HeT) as [L U]. fold m M in L, U. rewrite Hrd in L, U.
    assert (E : dew_step gamma (s i) x = x - gamma * T * (r_sat P x p - a_rv (s i))) by (unfold dew_step, dewpoint_expr; fold T p; ring). rewrite E.
    apply (Rmult_le_compat_l _ _ _ HG) in L. apply (Rmult_le_compat_l _ _ _ HG) in U. split; [lra|]. assert (0 <= gamma * T * (m * (x - Td))) by (apply Rmult_le_pos; [exact HG|apply Rmult_le_pos; lra]). lra. }
  destruct (Req_dec T Td) as [E0|N0].
  - assert (Q : forall n, dewpoint P gamma n s i = Td).
    { intros k. rewrite dewpoint_pointwise. fold T. rewrite E0. assert (E : dew_step gamma (s i) Td = Td) by (pose proof (ST Td ltac:(lra)); lra). induction k as [|k IH]; [reflexivity|]. cbn [niter]. rewrite E. exact IH. }
    rewrite !Q, E0. lra.
  - assert (HmM : gamma * T * m <= gamma * T * M).
    { apply Rmult_le_compat_l; [exact HG|]. destruct (rs_slope Td Td T T p Hd (Rle_refl _) HTd (Rle_refl _) HeT) as [L U]. fold m M in L, U. apply (Rmult_le_reg_r (T - Td)); lra. }
    assert (Inv : forall k, Td <= dewpoint P gamma k s i <= T /\ (1 - gamma * T * M) ^ k * (T - Td) <= dewpoint P gamma k s i - Td <= (1 - gamma * T * m) ^ k * (T - Td)).
    { induction k as [|k IH].
      - rewrite dewpoint_pointwise. cbn [niter pow]. fold T. lra.
      - destruct IH as [B [L U]].
        assert (Sk : dewpoint P gamma (S k) s i = dew_step gamma (s i) (dewpoint P gamma k s i)).
        { rewrite !dewpoint_pointwise. generalize (temperature_at P (s i)). clear. induction k as [|k IH]; intros x; [reflexivity|]. cbn [niter] in *. rewrite <- IH. reflexivity. }
        rewrite Sk. destruct (ST _ B) as [[L1 U1] D1]. set (x := dewpoint P gamma k s i) in *. set (y := dew_step gamma (s i) x) in *.
        assert (0 <= (1 - gamma * T * M) * (x - Td)) by (apply Rmult_le_pos; lra). split; [lra|]. cbn [pow]. split.
        + rewrite Rmult_assoc. eapply Rle_trans; [|exact L1]. apply Rmult_le_compat_l; lra.
        + rewrite Rmult_assoc. eapply Rle_trans; [exact U1|]. apply Rmult_le_compat_l; lra. }
    destruct (Inv n) as [B1 B2]. destruct (Inv (S n)) as [B3 _].
    assert (Sk : dewpoint P gamma (S n) s i = dew_step gamma (s i) (dewpoint P gamma n s i)).
    { rewrite !dewpoint_pointwise. generalize (temperature_at P (s i)). clear. induction n as [|k IH]; intros x; [reflexivity|]. cbn [niter] in *. rewrite <- IH. reflexivity. }
    destruct (ST _ B1) as [_ D1]. rewrite <- Sk in D1. repeat split; lra.
Qed.
End Saturation.

(** Refuted: with the default arguments (three iterations) the value is not the dewpoint.  At the freezing point and reference pressure, with a dewpoint
    ten degrees lower, it is more than seven degrees too high. *)
Theorem dewpoint_default_refuted : exists s : air, temperature_at default_params s = 273.15 /\ pressure_at default_params s = 100000 /\
  is_dewpoint default_params s 263.15 /\ 263.15 + 7 < dewpoint_default default_params (fun _ : unit => s) tt.
Proof.
  set (D := default_params). set (r := r_sat D 263.15 100000).
  assert (H3 : w_sat3 D < 263.15) by (cbn; lra).
  assert (ET : e_sat D 273.15 = 610.9). { unfold e_sat. cbn. replace (- -17.27 * (273.15 - 273.15) / (273.15 - 35.86)) with 0 by lra. rewrite exp_0. lra. }
  assert (Ed : e_sat D 263.15 < 610.9) by (rewrite <- ET; apply es_incr; [exact default_saturation_curve|exact H3|lra]).
  assert (Hr : 0 < r) by (apply r_sat_pos; [exact default_admissible|fold D; lra]).
  set (th := 273.15 * (1 + r * R_v D / R_d D)). assert (Hth : 0 < th) by (unfold th; cbn; apply Rmult_lt_0_compat; [lra|]; assert (0 < r * 461 / 287) by (apply Rdiv_lt_0_compat; [apply Rmult_lt_0_compat; lra|lra]); lra).
  set (s := {| a_rho := p_0 D / (R_d D * th); a_theta := th; a_rv := r |}).
  assert (Ex : exner_at D s = 1).
  { unfold exner_at, exner_pressure. cbn [a_rho a_theta s]. replace (p_0 D / (R_d D * th) * R_d D * th / p_0 D) with 1 by (cbn; field; lra). unfold Rpower. rewrite ln_1, Rmult_0_r. apply exp_0. }
  assert (Tv : temperature_at D s = 273.15).
  { unfold temperature_at. rewrite Ex. unfold T_of. cbn [a_theta a_rv s]. unfold th. cbn. field. assert (0 < r * 461) by (apply Rmult_lt_0_compat; lra). lra. }
  assert (Pv : pressure_at D s = 100000). { unfold pressure_at. rewrite Ex. unfold p_of, Rpower. rewrite ln_1, Rmult_0_r, exp_0. cbn. lra. }
  assert (HD : is_dewpoint D s 263.15) by (split; [exact H3|]; rewrite Pv; split; [fold D; lra|reflexivity]).
  exists s. split; [exact Tv|]. split; [exact Pv|]. split; [exact HD|].
  assert (SM : slope_max D 263.15 273.15 100000 <= 0.00031) by (unfold slope_max, slope_k; rewrite ET; cbn; lra).
  destruct (dewpoint_error D default_saturation_curve unit 1 3 (fun _ => s) tt 263.15) as (_ & _ & L & _); rewrite ?Tv, ?Pv; try lra; [exact HD|].
  rewrite Tv, Pv in L. unfold dewpoint_default. set (M := slope_max D 263.15 273.15 100000) in *.
  assert (B : 0.9 <= 1 - 1 * 273.15 * M) by lra. assert (0.9 ^ 3 <= (1 - 1 * 273.15 * M) ^ 3) by (apply pow_incr; lra). lra.
Qed.
