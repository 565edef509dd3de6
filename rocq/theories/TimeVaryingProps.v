(** Property C146. *)
From Coq Require Import Lra.
From Verif Require Import Base Vec RKSpec RK RKFacts RKProps ThetaSpec Theta ThetaProps ConvergenceSpec ConvergenceFacts ConvergenceMain ConvergenceProps TimeVaryingSpec TimeVarying.
Open Scope R_scope.

(** the right-hand side at time t *)
Definition rhs_at {I D} (prescribed : R -> D) (terms : D -> vec I -> vec I) (source : R -> vec I -> vec I) (t : R) : vec I -> vec I :=
  fun x => terms (prescribed t) x +v source t x.

Lemma scheme_apply_value {I D} A s f dt nc (terms : D -> vec I -> vec I) source (st : @state I D) : (0 < s)%nat ->
  field (scheme_apply A s f dt nc terms source st) = niter nc (erk_result A s (total (terms (velocity st)) (source (time st))) (dt / INR nc)) (field st).
Proof.
  intros Hs. unfold scheme_apply. cbv zeta. cbn [field]. apply apply_cycles_iterates. intros _ k x. unfold cycle. destruct f.
  - apply increment_is_textbook; [exact Hs|apply erk_result_spec].
  - apply predictor_is_textbook; [exact Hs|apply erk_result_spec].
Qed.
Lemma scheme_apply_time {I D} A s f dt nc (terms : D -> vec I -> vec I) source (st : @state I D) : time (scheme_apply A s f dt nc terms source st) = time st /\ velocity (scheme_apply A s f dt nc terms source st) = velocity st.
Proof. split; reflexivity. Qed.

(** What a step computes: the autonomous textbook steps with every stage and subcycle at the time of the start of the step. *)
Theorem time_varying_step_is_frozen :
  forall (I D : Type) A s f dt ncycles (prescribed : R -> D) (terms : D -> vec I -> vec I) source (st : @state I D), (0 < s)%nat ->
  erk_steps A s (rhs_at prescribed terms source (time st)) (dt / INR ncycles) ncycles (field st) (field (loop_pass A s f dt ncycles prescribed terms source st)) /\
  time (loop_pass A s f dt ncycles prescribed terms source st) = time st + dt /\
  velocity (loop_pass A s f dt ncycles prescribed terms source st) = prescribed (time st).
Proof.
  intros I D A s f dt nc pr te so st Hs. split; [|split; reflexivity]. apply erk_steps_iff. unfold loop_pass, timestep. cbv zeta. cbn [field]. rewrite scheme_apply_value by exact Hs. reflexivity.
Qed.
Print Assumptions time_varying_step_is_frozen.

(** time_invariants of the loop *)
Theorem time_varying_run_times :
  forall (I D : Type) A s f dt ncycles (prescribed : R -> D) (terms : D -> vec I -> vec I) source t n (st : @state I D),
  time (run_passes A s f dt ncycles prescribed terms source t n st) = t + INR n * dt.
Proof.
  intros. unfold run_passes. induction n as [|n IH]; [cbn; ring|]. rewrite niter_S_out, S_INR. unfold loop_pass at 1. cbv zeta. cbn [time]. unfold timestep. unfold scheme_apply. cbn [time]. rewrite IH. ring.
Qed.

(** The data do not depend on time, or the scheme is one evaluation per step (ForwardEuler without subcycles): the textbook non-autonomous steps. *)
Lemma run_passes_S {I D} A s f dt nc (pr : R -> D) (te : D -> vec I -> vec I) so t n (st : @state I D) :
  run_passes A s f dt nc pr te so t (S n) st = loop_pass A s f dt nc pr te so (run_passes A s f dt nc pr te so t n st).
Proof. unfold run_passes. apply niter_S_out. Qed.

Theorem autonomous_or_forward_euler_exact :
  forall (I D : Type) A s f dt ncycles (prescribed : R -> D) (terms : D -> vec I -> vec I) source t n (st : @state I D), (0 < s)%nat -> ncycles = 1%nat ->
  (forall u v, rhs_at prescribed terms source u = rhs_at prescribed terms source v) \/ s = 1%nat ->
  timed_steps A s (rhs_at prescribed terms source) dt t n (field st) (field (run_passes A s f dt ncycles prescribed terms source t n st)).
Proof.
  intros I D A s f dt nc pr te so t n st Hs -> Hor. induction n as [|n IH]; [reflexivity|]. rewrite run_passes_S. cbn [timed_steps]. eexists. split; [exact IH|].
  destruct (time_varying_step_is_frozen I D A s f dt 1 pr te so (run_passes A s f dt 1 pr te so t n st) Hs) as [H _]. rewrite time_varying_run_times in H. cbn [erk_steps] in H. destruct H as (z & -> & k & Hk & ->).
  replace (dt / INR 1) with dt in * by (cbn; field). exists k. split; [|reflexivity]. intros i Hi. rewrite (Hk i Hi) at 1. destruct Hor as [Hor|Hor].
  - rewrite (Hor (t + INR n * dt) (t + INR n * dt + c_coef A i * dt)). reflexivity.
  - assert (i = 0%nat) by lia. subst i. unfold c_coef. cbn [rsum]. f_equal. ring.
Qed.
Print Assumptions autonomous_or_forward_euler_exact.

(** ** First-order convergence *)
Lemma rsum_shift n (b g : nat -> R) c : rsum n (fun j => b j * (g j - c)) = rsum n (fun j => b j * g j) - rsum n b * c.
Proof. induction n as [|n IH]; cbn [rsum]; [ring|]. rewrite IH. ring. Qed.
Section Micro.
Context {I : Type}.
Variables (A : nat -> nat -> R) (s : nat) (B L Lt M H : R) (F : R -> vec I -> vec I) (y : R -> vec I) (t0 T : R).
Hypothesis bA : bounded_table A B.
Hypothesis o1 : order1 A s.
Hypothesis reg : timed_regular F y t0 T L Lt M.
Hypothesis sol : timed_solution F y t0 T.
Hypothesis HT : T - t0 <= H.
Hypothesis H0 : 0 <= H.
Definition WW : R := (1 + L * (H * B)) ^ s.
Definition ss : R := INR s.

Lemma solution_moves t u : t0 <= t <= T -> t0 <= u <= T -> t <= u -> sup_le (y u -v y t) (M * (u - t)).
Proof.
  intros Ht Hu Htu i. destruct reg as (_ & _ & M0 & _ & _ & HM). destruct (Req_dec t u) as [->|N].
  - vunfold. rewrite !Rminus_diag_eq by reflexivity. rewrite Rabs_R0. lra.
  - destruct (MVT_cor2 (fun v => y v i) (fun v => F v (y v) i) t u ltac:(lra)) as (c & Hc & Hc').
    { intros c Hc. apply sol. lra. }
    vunfold. rewrite Hc, Rabs_mult. rewrite (Rabs_pos_eq (u - t)) by lra. apply Rmult_le_compat_r; [lra|]. apply HM. lra.
Qed.
Lemma local_taylor t h : t0 <= t -> t + h <= T -> 0 < h -> sup_le (y (t + h) -v (y t +v h *v F t (y t))) (h * ((Lt + L * M) * h)).
Proof.
  intros Ht Hh h0 i. pose proof reg as (L0 & Lt0 & M0 & HL & HLt & HM).
  destruct (MVT_cor2 (fun v => y v i) (fun v => F v (y v) i) t (t + h) ltac:(lra)) as (c & Hc & Hc').
  { intros c Hc. apply sol. lra. }
  assert (E : sup_le (F c (y c) -v F t (y t)) ((Lt + L * M) * h)).
  { apply (sup_mono _ (Lt * Rabs (c - t) + L * (M * (c - t)))).
    - apply (sup_trans _ (F t (y c))); [apply HLt; lra|]. apply HL. apply solution_moves; lra.
    - rewrite Rabs_pos_eq by lra. assert (Lt * (c - t) <= Lt * h) by (apply Rmult_le_compat_l; lra). assert (M * (c - t) <= M * h) by (apply Rmult_le_compat_l; lra).
      assert (L * (M * (c - t)) <= L * (M * h)) by (apply Rmult_le_compat_l; lra). lra. }
  specialize (E i). vunfold. replace (y (t + h) i - (y t i + h * F t (y t) i)) with (h * (F c (y c) i - F t (y t) i)).
  - rewrite Rabs_mult, (Rabs_pos_eq h) by lra. apply Rmult_le_compat_l; [lra|exact E].
  - replace (y (t + h) i) with (y t i + (y (t + h) i - y t i)) by ring. rewrite Hc. ring.
Qed.

Lemma geometric (q r : R) n : rsum n (fun j => r * (q * (1 + r) ^ j)) = q * ((1 + r) ^ n - 1).
Proof. induction n as [|n IH]; cbn [rsum pow]; [ring|]. rewrite IH. ring. Qed.
Lemma a_bound i j : Rabs (a_coef A i j) <= B.
Proof. destruct bA as [B0 Hb]. destruct i; cbn; [rewrite Rabs_R0; exact B0|apply Hb]. Qed.
Lemma sup_vsum_var n (g : nat -> vec I) (r : nat -> R) : (forall k, (k < n)%nat -> sup_le (g k) (r k)) -> sup_le (vsum n g) (rsum n r).
Proof. induction n as [|n IH]; intros Hg; cbn [vsum rsum]; [apply sup_zero; lra|]. apply sup_add; [apply IH; intros; apply Hg; lia|apply Hg; lia]. Qed.

Lemma micro_step u t h D E x x' : t0 <= u <= T -> t0 <= t -> t + h <= T -> 0 < h -> Rabs (t - u) <= D -> D <= H -> 0 <= E -> sup_le (x -v y t) E -> erk_step A s (F u) h x x' ->
  sup_le (x' -v y (t + h)) (E + h * (ss * (B * (L * E + Lt * D + L * (h * (ss * (B * (WW * (M + L * E + Lt * D)))))))) + h * ((Lt + L * M) * h)).
Proof.
  intros Hu Ht Hth h0 HD HDH E0 Hx (k & Hk & ->). pose proof reg as (L0 & Lt0 & M0 & HL & HLt & HM). destruct bA as [B0 Hb]. set (Q := M + L * E + Lt * D).
  assert (D0 : 0 <= D) by (eapply Rle_trans; [apply Rabs_pos|exact HD]).
  assert (Q0 : 0 <= Q) by (unfold Q; assert (0 <= L * E) by (apply Rmult_le_pos; assumption); assert (0 <= Lt * D) by (apply Rmult_le_pos; assumption); lra).
  assert (fr : sup_le (F u (y t) -v F t (y t)) (Lt * D)).
  { apply (sup_flip). eapply sup_mono; [apply HLt; lra|]. apply Rmult_le_compat_l; assumption. }
  assert (close : forall v rho, sup_le v rho -> sup_le (F u (x +v v) -v F t (y t)) (L * (E + rho) + Lt * D)).
  { intros v rho Hv. apply (sup_trans _ (F u (y t))); [|exact fr]. apply HL. apply (sup_ext ((x -v y t) +v v)); [intros i; vunfold; ring|]. apply sup_add; assumption. }
  set (r := L * (h * B)). assert (r0 : 0 <= r) by (unfold r; apply Rmult_le_pos; [assumption|apply Rmult_le_pos; lra]).
  assert (stage : forall n, (n < s)%nat -> sup_le (k n) (Q * (1 + r) ^ n)).
  { intros n. induction n as [n IH] using (well_founded_induction lt_wf). intros Hn. rewrite (Hk n Hn).
    assert (V : sup_le (h *v vsum n (fun j => a_coef A n j *v k j)) (h * rsum n (fun j => B * (Q * (1 + r) ^ j)))).
    { rewrite <- (Rabs_pos_eq h) at 2 by lra. apply sup_scal. apply sup_vsum_var. intros j Hj. eapply sup_mono; [apply sup_scal; apply IH; [exact Hj|lia]|].
      apply Rmult_le_compat_r; [|apply a_bound]. apply Rmult_le_pos; [exact Q0|]. apply pow_le. lra. }
    apply (sup_ext ((F u (x +v h *v vsum n (fun j => a_coef A n j *v k j)) -v F t (y t)) +v F t (y t))); [intros i; vunfold; ring|].
    eapply sup_mono; [apply sup_add; [apply (close _ _ V)|apply HM; lra]|].
    assert (G : L * (h * rsum n (fun j => B * (Q * (1 + r) ^ j))) = Q * ((1 + r) ^ n - 1)).
    { rewrite <- geometric. rewrite <- !rsum_scal. apply rsum_ext. intros j _. unfold r. ring. }
    rewrite Rmult_plus_distr_l, G. unfold Q. right. ring. }
  assert (rW : forall n, (n < s)%nat -> (1 + r) ^ n <= WW).
  { intros n Hn. unfold WW. apply (Rle_trans _ ((1 + L * (H * B)) ^ n)).
    - apply pow_incr. split; [lra|]. unfold r. assert (h * B <= H * B) by (apply Rmult_le_compat_r; lra). assert (L * (h * B) <= L * (H * B)) by (apply Rmult_le_compat_l; lra). lra.
    - apply Rle_pow; [|lia]. assert (0 <= L * (H * B)) by (apply Rmult_le_pos; [|apply Rmult_le_pos]; lra). lra. }
  assert (stage' : forall n, (n < s)%nat -> sup_le (k n) (WW * Q)).
  { intros n Hn. eapply sup_mono; [apply stage; exact Hn|]. rewrite (Rmult_comm WW). apply Rmult_le_compat_l; [exact Q0|apply rW; exact Hn]. }
  set (dev := L * E + Lt * D + L * (h * (ss * (B * (WW * Q))))).
  assert (W0 : 0 <= WW) by (unfold WW; apply pow_le; assert (0 <= L * (H * B)) by (apply Rmult_le_pos; [|apply Rmult_le_pos]; lra); lra).
  assert (WQ : 0 <= B * (WW * Q)) by (apply Rmult_le_pos; [|apply Rmult_le_pos]; assumption).
  assert (kd : forall n, (n < s)%nat -> sup_le (k n -v F t (y t)) dev).
  { intros n Hn. rewrite (Hk n Hn).
    assert (V : sup_le (h *v vsum n (fun j => a_coef A n j *v k j)) (h * (ss * (B * (WW * Q))))).
    { rewrite <- (Rabs_pos_eq h) at 2 by lra. apply sup_scal. eapply sup_mono; [apply (sup_vsum n _ (B * (WW * Q)))|].
      - intros j Hj. eapply sup_mono; [apply sup_scal; apply stage'; lia|]. apply Rmult_le_compat_r; [apply Rmult_le_pos; assumption|apply a_bound].
      - apply Rmult_le_compat_r; [exact WQ|]. apply le_INR. lia. }
    eapply sup_mono; [apply (close _ _ V)|]. unfold dev. right. ring. }
  assert (step : sup_le ((x +v h *v vsum s (fun j => b_coef A s j *v k j)) -v (y t +v h *v F t (y t))) (E + h * (ss * (B * dev)))).
  { apply (sup_ext ((x -v y t) +v h *v vsum s (fun j => b_coef A s j *v (k j -v F t (y t))))).
    - intros i. vunfold. rewrite !vsum_at.
      assert (X : rsum s (fun j => b_coef A s j * (k j i - F t (y t) i)) = rsum s (fun j => b_coef A s j * k j i) - rsum s (b_coef A s) * F t (y t) i).
      { apply (rsum_shift s (b_coef A s) (fun j => k j i)). }
      rewrite X. rewrite o1. ring.
    - apply sup_add; [exact Hx|]. rewrite <- (Rabs_pos_eq h) at 2 by lra. apply sup_scal. apply sup_vsum. intros j Hj.
      eapply sup_mono; [apply sup_scal; apply kd; exact Hj|]. apply Rmult_le_compat_r; [|unfold b_coef; apply Hb]. unfold dev.
      assert (0 <= L * E) by (apply Rmult_le_pos; assumption). assert (0 <= Lt * D) by (apply Rmult_le_pos; assumption). assert (0 <= L * (h * (ss * (B * (WW * Q))))) by (apply Rmult_le_pos; [assumption|apply Rmult_le_pos; [lra|apply Rmult_le_pos; [apply pos_INR|assumption]]]). lra. }
  apply (sup_trans _ (y t +v h *v F t (y t))); [exact step|]. apply sup_flip. apply local_taylor; lra.
Qed.
End Micro.

Lemma bound_grows (C1 C2 e0 d tau h : R) : 0 <= C1 -> 0 <= C2 -> 0 <= e0 -> 0 <= d -> 0 <= tau -> 0 <= h ->
  (1 + C1 * h) * (exp (C1 * tau) * (e0 + tau * C2 * d)) + C2 * h * d <= exp (C1 * (tau + h)) * (e0 + (tau + h) * C2 * d).
Proof.
  intros c1 c2 he hd ht hh. replace (C1 * (tau + h)) with (C1 * h + C1 * tau) by ring. rewrite exp_plus.
  pose proof (exp_ge1 (C1 * h) ltac:(apply Rmult_le_pos; lra)) as G1. pose proof (exp_ge1 (C1 * tau) ltac:(apply Rmult_le_pos; lra)) as G2.
  assert (0 <= C1 * h) by (apply Rmult_le_pos; lra). assert (0 <= C1 * tau) by (apply Rmult_le_pos; lra). set (X := exp (C1 * h)) in *. set (Y := exp (C1 * tau)) in *.
  assert (Z : 0 <= e0 + tau * C2 * d) by (assert (0 <= tau * C2 * d) by (repeat apply Rmult_le_pos; lra); lra).
  assert (W : 1 <= X * Y) by (rewrite <- (Rmult_1_r 1); apply Rmult_le_compat; lra).
  assert (K1 : (1 + C1 * h) * (Y * (e0 + tau * C2 * d)) <= X * (Y * (e0 + tau * C2 * d))) by (apply Rmult_le_compat_r; [apply Rmult_le_pos; lra|lra]).
  assert (K2 : 1 * (C2 * h * d) <= X * Y * (C2 * h * d)) by (apply Rmult_le_compat_r; [repeat apply Rmult_le_pos; lra|exact W]). lra.
Qed.
Lemma micro_bound (S L Lt M Z H h d E : R) : 0 <= S -> 0 <= L -> 0 <= Lt -> 0 <= M -> 0 <= Z -> 0 < h -> h <= d -> d <= H -> 0 <= E ->
  E + h * (S * (L * E + Lt * d + L * (h * (Z * (M + L * E + Lt * d))))) + h * ((Lt + L * M) * h) <=
  (1 + (S * L + S * L * H * Z * L) * h) * E + (S * Lt + S * L * Z * (M + Lt * H) + Lt + L * M) * h * d.
Proof.
  intros S0 L0 Lt0 M0 Z0 h0 hd dH E0.
  assert (P : forall a b c, 0 <= a -> b <= c -> a * b <= a * c) by (intros; apply Rmult_le_compat_l; assumption).
  assert (Q1 : (S * L * Z * L * E * h) * h <= (S * L * Z * L * E * h) * H) by (apply P; [repeat apply Rmult_le_pos; lra|lra]).
  assert (Q2 : (S * L * Z * M * h) * h <= (S * L * Z * M * h) * d) by (apply P; [repeat apply Rmult_le_pos; lra|lra]).
  assert (Q3 : (S * L * Z * Lt * h * d) * h <= (S * L * Z * Lt * h * d) * H) by (apply P; [repeat apply Rmult_le_pos; lra|lra]).
  assert (Q4 : (Lt * h) * h <= (Lt * h) * d) by (apply P; [repeat apply Rmult_le_pos; lra|lra]).
  assert (Q5 : (L * M * h) * h <= (L * M * h) * d) by (apply P; [repeat apply Rmult_le_pos; lra|lra]). lra.
Qed.

Theorem time_varying_first_order :
  forall (I D : Type) A s B (prescribed : R -> D) (terms : D -> vec I -> vec I) source y t0 T L Lt M, (0 < s)%nat ->
  bounded_table A B -> order1 A s -> timed_solution (rhs_at prescribed terms source) y t0 T -> timed_regular (rhs_at prescribed terms source) y t0 T L Lt M ->
  exists C, 0 <= C /\ forall f dt ncycles n (st : @state I D) e0, 0 < dt -> (0 < ncycles)%nat -> t0 + INR n * dt <= T -> 0 <= e0 -> sup_le (field st -v y t0) e0 ->
  sup_le (field (run_passes A s f dt ncycles prescribed terms source t0 n st) -v y (t0 + INR n * dt)) (C * (e0 + dt)).
Proof.
  intros I D A s B pr te so y t0 T L Lt M Hs bA o1 sol reg. set (F := rhs_at pr te so) in *. set (H := Rabs (T - t0)).
  assert (H0 : 0 <= H) by apply Rabs_pos. assert (HT : T - t0 <= H) by apply Rle_abs. pose proof reg as (L0 & Lt0 & M0 & _). pose proof bA as [B0 _].
  set (S := ss s * B). set (Z := ss s * B * WW s B L H). set (C1 := S * L + S * L * H * Z * L). set (C2 := S * Lt + S * L * Z * (M + Lt * H) + Lt + L * M).
  assert (s0 : 0 <= ss s) by apply pos_INR. assert (S0 : 0 <= S) by (apply Rmult_le_pos; assumption).
  assert (W0 : 0 <= WW s B L H) by (unfold WW; apply pow_le; assert (0 <= L * (H * B)) by (repeat apply Rmult_le_pos; assumption); lra).
  assert (Z0 : 0 <= Z) by (apply Rmult_le_pos; assumption).
  assert (c1 : 0 <= C1) by (unfold C1; assert (0 <= S * L) by (apply Rmult_le_pos; assumption); assert (0 <= S * L * H * Z * L) by (repeat apply Rmult_le_pos; assumption); lra).
  assert (c2 : 0 <= C2).
  { unfold C2. assert (0 <= S * Lt) by (apply Rmult_le_pos; assumption). assert (0 <= Lt * H) by (apply Rmult_le_pos; assumption). assert (0 <= S * L * Z * (M + Lt * H)) by (repeat apply Rmult_le_pos; lra). assert (0 <= L * M) by (apply Rmult_le_pos; assumption). lra. }
  exists (exp (C1 * H) * (1 + H * C2)). assert (HC : 0 <= H * C2) by (apply Rmult_le_pos; assumption). split; [apply Rmult_le_pos; [left; apply exp_pos|lra]|].
  intros f dt nc n st e0 hdt hnc Hn he He. set (bd := fun tau => exp (C1 * tau) * (e0 + tau * C2 * dt)).
  assert (N0 : 0 < INR nc) by (apply lt_0_INR; exact hnc). set (h := dt / INR nc). assert (h0 : 0 < h) by (apply Rdiv_lt_0_compat; assumption).
  assert (hnd : INR nc * h = dt) by (unfold h; field; lra).
  assert (hd : h <= dt). { rewrite <- hnd. rewrite <- (Rmult_1_l h) at 1. apply Rmult_le_compat_r; [lra|]. change 1 with (INR 1). apply le_INR. lia. }
  assert (main : forall k, (k <= n)%nat -> sup_le (field (run_passes A s f dt nc pr te so t0 k st) -v y (t0 + INR k * dt)) (bd (INR k * dt))).
  { induction k as [|k IH]; intros Hk.
    - cbn [INR]. rewrite Rmult_0_l, Rplus_0_r. unfold bd. rewrite Rmult_0_r, exp_0. eapply sup_mono; [exact He|]. right. ring.
    - specialize (IH ltac:(lia)). set (u := t0 + INR k * dt) in *.
      assert (Uu : u + dt <= T). { unfold u. assert (K : INR (1 + k) <= INR n) by (apply le_INR; lia). rewrite plus_INR in K. change (INR 1) with 1 in K. assert ((1 + INR k) * dt <= INR n * dt) by (apply Rmult_le_compat_r; lra). lra. }
      assert (Ku : 0 <= INR k * dt) by (apply Rmult_le_pos; [apply pos_INR|lra]). assert (u0 : t0 <= u) by (unfold u; lra).
      destruct (time_varying_step_is_frozen I D A s f dt nc pr te so (run_passes A s f dt nc pr te so t0 k st) Hs) as [St _]. rewrite time_varying_run_times in St. rewrite run_passes_S. fold u F h in St.
      revert St. generalize (field (loop_pass A s f dt nc pr te so (run_passes A s f dt nc pr te so t0 k st))). intros x' St. rewrite S_INR.
      assert (sub : forall j z, (j <= nc)%nat -> erk_steps A s (F u) h j (field (run_passes A s f dt nc pr te so t0 k st)) z -> sup_le (z -v y (u + INR j * h)) (bd (INR k * dt + INR j * h))).
      { induction j as [|j IHj]; intros z Hj Hz.
        - cbn in Hz. subst z. cbn [INR]. rewrite Rmult_0_l, !Rplus_0_r. exact IH.
        - destruct Hz as (w & Hw & Hst). specialize (IHj w ltac:(lia) Hw). rewrite S_INR.
          assert (J0 : 0 <= INR j * h) by (apply Rmult_le_pos; [apply pos_INR|lra]).
          assert (J1 : (INR j + 1) * h <= dt). { rewrite <- S_INR, <- hnd. apply Rmult_le_compat_r; [lra|]. apply le_INR. lia. }
          assert (E0 : 0 <= bd (INR k * dt + INR j * h)). { unfold bd. apply Rmult_le_pos; [left; apply exp_pos|]. assert (0 <= (INR k * dt + INR j * h) * C2 * dt) by (repeat apply Rmult_le_pos; lra). lra. }
          pose proof (micro_step A s B L Lt M H F y t0 T bA o1 reg sol HT H0 u (u + INR j * h) h dt (bd (INR k * dt + INR j * h)) w z ltac:(lra) ltac:(lra) ltac:(lra) h0) as MS.
          specialize (MS ltac:(rewrite Rabs_pos_eq; lra) ltac:(lra) E0 IHj Hst).
          replace (u + (INR j + 1) * h) with (u + INR j * h + h) by ring. eapply sup_mono; [exact MS|].
          set (E := bd (INR k * dt + INR j * h)) in *. pose proof (micro_bound S L Lt M Z H h dt E S0 L0 Lt0 M0 Z0 h0 hd ltac:(lra) E0) as MB. fold C1 C2 in MB.
          replace (INR k * dt + (INR j + 1) * h) with (INR k * dt + INR j * h + h) by ring.
          pose proof (bound_grows C1 C2 e0 dt (INR k * dt + INR j * h) h c1 c2 he ltac:(lra) ltac:(lra) ltac:(lra)) as BG. fold (bd (INR k * dt + INR j * h)) in BG. fold (bd (INR k * dt + INR j * h + h)) in BG. fold E in BG.
          eapply Rle_trans; [|exact BG]. eapply Rle_trans; [|exact MB]. unfold S, Z. right. ring. }
      specialize (sub nc x' (le_n _) St). rewrite hnd in sub. replace (t0 + (INR k + 1) * dt) with (u + dt) by (unfold u; ring). replace ((INR k + 1) * dt) with (INR k * dt + dt) by ring. exact sub. }
  clearbody H. eapply sup_mono; [apply main; lia|]. assert (Hn0 : 0 <= INR n * dt) by (apply Rmult_le_pos; [apply pos_INR|lra]). assert (HnH : INR n * dt <= H) by lra. unfold bd.
  rewrite (Rmult_assoc (exp (C1 * H)) (1 + H * C2) (e0 + dt)). apply Rmult_le_compat.
  - left; apply exp_pos.
  - assert (0 <= INR n * dt * C2 * dt) by (repeat apply Rmult_le_pos; try lra; apply pos_INR). lra.
  - assert (C1 * (INR n * dt) <= C1 * H) by (apply Rmult_le_compat_l; assumption). destruct (Req_dec (C1 * (INR n * dt)) (C1 * H)) as [Eq|Ne]; [right; f_equal; exact Eq|]. left. apply exp_increasing. lra.
  - assert (X : INR n * dt * C2 <= H * C2) by (apply Rmult_le_compat_r; assumption). assert (INR n * dt * C2 * dt <= H * C2 * dt) by (apply Rmult_le_compat_r; lra). assert (0 <= H * C2 * e0) by (apply Rmult_le_pos; assumption). lra.
Qed.
Print Assumptions time_varying_first_order.

(** The provided schemes with exact coefficients. *)
Theorem provided_schemes_time_varying_first_order :
  forall (I D : Type) p A s (prescribed : R -> D) (terms : D -> vec I -> vec I) source y t0 T L Lt M, In (p, A, s) explicit_schemes ->
  timed_solution (rhs_at prescribed terms source) y t0 T -> timed_regular (rhs_at prescribed terms source) y t0 T L Lt M ->
  exists C, 0 <= C /\ forall f dt ncycles n (st : @state I D) e0, 0 < dt -> (0 < ncycles)%nat -> t0 + INR n * dt <= T -> 0 <= e0 -> sup_le (field st -v y t0) e0 ->
  sup_le (field (run_passes A s f dt ncycles prescribed terms source t0 n st) -v y (t0 + INR n * dt)) (C * (e0 + dt)).
Proof.
  intros I D p A s pr te so y t0 T L Lt M Hin sol reg. destruct explicit_schemes_have_advertised_order as (O1 & O2 & O3 & O4 & O5 & O6 & O7).
  assert (Q : (0 < s)%nat /\ order1 A s /\ exists B, bounded_table A B).
  { cbn [explicit_schemes In] in Hin. unfold has_order4, has_order3, has_order2, has_order1 in *.
    repeat (destruct Hin as [E|Hin]; [injection E as <- <- <-; split; [lia|]; split; [tauto|apply table_bounded]|]). destruct Hin. }
  destruct Q as (Hs & Ho & B & HB). apply (time_varying_first_order I D A s B pr te so y t0 T L Lt M); assumption.
Qed.
Print Assumptions provided_schemes_time_varying_first_order.

(** ** Not second order: the source equal to the time *)
Lemma erk_steps_constant {I} A s (g : vec I) h n : order1 A s -> forall x y1, erk_steps A s (fun _ => g) h n x y1 -> y1 = x +v (INR n * h) *v g.
Proof.
  intros o1. induction n as [|n IH]; intros x y1 H.
  - cbn in H. subst y1. cbn. vring.
  - destruct H as (z & Hz & k & Hk & ->). rewrite (IH x z Hz). rewrite S_INR. assert (E : vsum s (fun j => b_coef A s j *v k j) = g).
    { transitivity (vsum s (fun j => b_coef A s j *v g)); [apply vsum_ext; intros j Hj; rewrite (Hk j Hj); reflexivity|]. rewrite vsum_scal_const. transitivity (1 *v g); [|vring]. f_equal. exact o1. }
    rewrite E. vring.
Qed.
(** Every consistent scheme, formulation and number of subcycles: after n steps the result is the left rectangle rule. *)
Theorem clock_source_value :
  forall (I D : Type) A s f dt ncycles (prescribed : R -> D) (terms : D -> vec I -> vec I) source t0 n (st : @state I D), (0 < s)%nat -> (0 < ncycles)%nat -> order1 A s ->
  (forall t x, rhs_at prescribed terms source t x = (fun _ => t)) -> forall i,
  field (run_passes A s f dt ncycles prescribed terms source t0 n st) i = field st i + ((t0 + INR n * dt) ^ 2 / 2 - t0 ^ 2 / 2) - INR n * dt * (dt / 2).
Proof.
  intros I D A s f dt nc pr te so t0 n st Hs Hn o1 HF i. assert (N0 : 0 < INR nc) by (apply lt_0_INR; exact Hn). induction n as [|n IH].
  - cbn. field.
  - rewrite run_passes_S, S_INR. destruct (time_varying_step_is_frozen I D A s f dt nc pr te so (run_passes A s f dt nc pr te so t0 n st) Hs) as [H _]. rewrite time_varying_run_times in H.
    assert (E : rhs_at pr te so (t0 + INR n * dt) = fun _ => (fun _ => t0 + INR n * dt)) by (apply functional_extensionality; intros x; apply HF). rewrite E in H.
    rewrite (erk_steps_constant A s _ _ _ o1 _ _ H). unfold vadd, vscal. rewrite IH. field. lra.
Qed.
Print Assumptions clock_source_value.
(** The textbook steps of any scheme of order two are exact for it. *)
Theorem clock_source_textbook :
  forall (I : Type) A s dt t0 n (x y1 : vec I), order1 A s -> RKSpec.order2 A s -> timed_steps A s (fun t _ _ => t) dt t0 n x y1 ->
  forall i, y1 i = x i + ((t0 + INR n * dt) ^ 2 / 2 - t0 ^ 2 / 2).
Proof.
  intros I A s dt t0 n x y1 o1 o2 H i. revert y1 H. induction n as [|n IH]; intros y1 H.
  - cbn in H. subst y1. cbn. field.
  - destruct H as (z & Hz & k & Hk & ->). rewrite S_INR. vunfold. rewrite (IH z Hz), vsum_at.
    assert (E : rsum s (fun j => b_coef A s j * k j i) = (t0 + INR n * dt) + dt / 2).
    { transitivity (rsum s (fun j => (t0 + INR n * dt) * b_coef A s j + dt * (b_coef A s j * c_coef A j))); [apply rsum_ext; intros j Hj; rewrite (Hk j Hj); ring|].
      rewrite rsum_add, !rsum_scal. unfold order1 in o1. unfold RKSpec.order2 in o2. rewrite o2. transitivity ((t0 + INR n * dt) * 1 + dt * (1/2)); [f_equal; f_equal; exact o1|field]. }
    rewrite E. field.
Qed.
Print Assumptions clock_source_textbook.

(** the two ways to prescribe the time as a tendency: through the field 'u' (PrescribedTransport) or a time-varying SourceSink *)
Definition clock_terms (through_velocity : bool) : R -> vec unit -> vec unit := fun u _ _ => if through_velocity then u else 0.
Definition clock_source (through_velocity : bool) : R -> vec unit -> vec unit := fun t _ _ => if through_velocity then 0 else t.
Definition parabola : R -> vec unit := fun t _ => t ^ 2 / 2.
Lemma clock_rhs b t x : rhs_at (fun t => t) (clock_terms b) (clock_source b) t x = (fun _ => t).
Proof. unfold rhs_at, clock_terms, clock_source. apply functional_extensionality. intros []. unfold vadd. destruct b; ring. Qed.
Lemma clock_problem b : timed_solution (rhs_at (fun t => t) (clock_terms b) (clock_source b)) parabola 0 1 /\ timed_regular (rhs_at (fun t => t) (clock_terms b) (clock_source b)) parabola 0 1 0 1 1.
Proof.
  split.
  - intros t i _. rewrite clock_rhs. unfold parabola. replace t with (/ 2 * (INR 2 * t ^ pred 2)) at 2 by (cbn; field).
    assert (E : (fun u : R => u ^ 2 / 2) = mult_real_fct (/ 2) (fun u => u ^ 2)) by (apply functional_extensionality; intros u; unfold mult_real_fct; field). rewrite E.
    apply derivable_pt_lim_scal. apply derivable_pt_lim_pow.
  - repeat split; try lra.
    + intros t x z rho _. rewrite !clock_rhs. intros i. vunfold. rewrite Rminus_diag_eq by reflexivity. rewrite Rabs_R0. lra.
    + intros t u _ _. rewrite !clock_rhs. intros i. vunfold. lra.
    + intros t Ht. rewrite clock_rhs. intros i. rewrite Rabs_pos_eq; lra.
Qed.
(** No consistent scheme, whatever its order for problems without explicit time, is of second order for this one: not with the velocity prescribed, not with a time-varying source. *)
Theorem time_varying_second_order_refuted :
  forall A s f ncycles b, (0 < s)%nat -> (0 < ncycles)%nat -> order1 A s ->
  ~ (exists C h0, 0 < h0 /\ forall dt n (st : @state unit R), 0 < dt <= h0 -> INR n * dt <= 1 -> field st = parabola 0 ->
     sup_le (field (run_passes A s f dt ncycles (fun t => t) (clock_terms b) (clock_source b) 0 n st) -v parabola (INR n * dt)) (C * dt ^ 2)).
Proof.
  intros A s f nc b Hs Hn o1 (C & h0 & Hh & H).
  set (K := Rmax (1 / h0) (2 * (Rabs C + 1))). destruct (archimed K) as [K1 _].
  assert (K0 : 2 <= K) by (eapply Rle_trans; [|apply Rmax_r]; pose proof (Rabs_pos C); lra).
  assert (Z0 : (0 <= up K)%Z) by (apply le_IZR; lra). set (n := Z.to_nat (up K)). assert (Nn : INR n = IZR (up K)) by (unfold n; rewrite INR_IZR_INZ, Z2Nat.id by exact Z0; reflexivity).
  assert (n0 : 0 < INR n) by lra. set (dt := / INR n). assert (d0 : 0 < dt) by (apply Rinv_0_lt_compat; exact n0). assert (nd : INR n * dt = 1) by (unfold dt; field; lra).
  assert (dh : dt <= h0).
  { assert (1 / h0 <= INR n) by (apply (Rle_trans _ K); [apply Rmax_l|lra]). unfold dt. rewrite <- (Rinv_inv h0). apply Rinv_le_contravar; [apply Rinv_0_lt_compat; exact Hh|]. unfold Rdiv in H0. lra. }
  specialize (H dt n (mk_state 0 0 (fun _ => vzero) (parabola 0)) (conj d0 dh) ltac:(lra) eq_refl tt). unfold vsub in H.
  rewrite clock_source_value in H by (try assumption; intros; apply clock_rhs). cbn [field] in H. unfold parabola in H. rewrite Rplus_0_l, nd in H.
  replace (0 ^ 2 / 2 + (1 ^ 2 / 2 - 0 ^ 2 / 2) - 1 * (dt / 2) - 1 ^ 2 / 2) with (- (dt / 2)) in H by field. rewrite Rabs_Ropp, Rabs_pos_eq in H by lra.
  assert (Q : C * dt <= Rabs C * dt) by (apply Rmult_le_compat_r; [lra|apply Rle_abs]).
  assert (W : 2 * (Rabs C + 1) <= INR n) by (apply (Rle_trans _ K); [apply Rmax_r|lra]).
  assert (W' : 2 * (Rabs C + 1) * dt <= INR n * dt) by (apply Rmult_le_compat_r; lra). rewrite nd in W'.
  assert (V : (C * dt) * dt <= (Rabs C * dt) * dt) by (apply Rmult_le_compat_r; lra).
  assert (V' : (Rabs C * dt) * dt <= (1 / 2 - dt) * dt) by (apply Rmult_le_compat_r; lra). assert (0 < dt * dt) by (apply Rmult_lt_0_compat; assumption). cbn [pow] in H. lra.
Qed.
Print Assumptions time_varying_second_order_refuted.

(** The theta family: the implicit part, too, sees the time of the start of the step. *)
Lemma theta_steps_constant {I} theta (g p : vec I) h n : forall x y, steps (theta_step theta (fun _ => g) (fun _ => p) h) n x y -> y = x +v (INR n * h) *v (g +v p).
Proof.
  induction n as [|n IH]; intros x y H.
  - cbn in H. subst y. cbn. vring.
  - destruct H as (z & Hz & Hs). apply IH in Hs. rewrite Hs. unfold theta_step in Hz. rewrite Hz, S_INR. vring.
Qed.
Theorem theta_time_varying_value :
  forall (I : Type) theta dt ncycles n (N P : R -> vec I -> vec I) X t x t' x', (0 < ncycles)%nat -> (forall u z i, - N u z i - P u z i = u) ->
  (forall u z z', N u z = N u z' /\ P u z = P u z') -> theta_run theta dt ncycles n N P X t x t' x' ->
  t' = t + INR n * dt /\ forall i, x' i = x i + (t' ^ 2 / 2 - t ^ 2 / 2) - INR n * dt * (dt / 2).
Proof.
  intros I theta dt nc n N P X t x t' x' Hn HN Hc. assert (N0 : 0 < INR nc) by (apply lt_0_INR; exact Hn). revert t' x'. induction n as [|n IH]; intros t' x' H.
  - destruct H as [-> ->]. cbn. split; [ring|]. intros i. field.
  - destruct H as (t1 & x1 & H1 & src & src' & H2 & ->). destruct (IH t1 x1 H1) as [E1 E2]. rewrite S_INR. split; [rewrite E1; ring|].
    intros i. assert (S2 : steps (theta_step theta (neg (N t1)) (neg (P t1)) (dt / INR nc)) nc x1 x').
    { apply (proj1 (theta_schemes_are_textbook I (N t1) (P t1) (dt / INR nc) X src nc x1 x')). exists src'. exact H2. }
    assert (EN : neg (N t1) = fun _ => neg (N t1) x1) by (apply functional_extensionality; intros z; unfold neg; rewrite (proj1 (Hc t1 z x1)); reflexivity).
    assert (EP : neg (P t1) = fun _ => neg (P t1) x1) by (apply functional_extensionality; intros z; unfold neg; rewrite (proj2 (Hc t1 z x1)); reflexivity).
    rewrite EN, EP in S2. apply theta_steps_constant in S2. rewrite S2. unfold vadd, vscal, neg, vscal.
    replace (-1 * N t1 x1 i + -1 * P t1 x1 i) with (- N t1 x1 i - P t1 x1 i) by ring. rewrite HN, E2, E1. field. lra.
Qed.
Print Assumptions theta_time_varying_value.

(** ** Output: the dumped velocity *)
Theorem dumped_velocity_lags :
  forall (I D : Type) A s f dt ncycles (prescribed : R -> D) (terms : D -> vec I -> vec I) source t n (st : @state I D),
  dumped (run_passes A s f dt ncycles prescribed terms source t 0 st) = (t, prescribed (time st)) /\
  dumped (run_passes A s f dt ncycles prescribed terms source t (S n) st) = (t + INR (S n) * dt, prescribed (t + INR n * dt)).
Proof.
  intros. split; [reflexivity|]. unfold dumped. rewrite time_varying_run_times, run_passes_S. f_equal. unfold loop_pass, timestep, scheme_apply. cbv zeta. cbn [velocity]. rewrite time_varying_run_times. reflexivity.
Qed.
(** A run from t = 0, or any other start, does not output the prescribed velocity of the time written beside it. *)
Theorem dumped_velocity_at_its_time_refuted :
  forall A s f dt ncycles (terms : R -> vec unit -> vec unit) source, 0 < dt ->
  ~ (forall t n (st : @state unit R), let d := dumped (run_passes A s f dt ncycles (fun u => u) terms source t n st) in snd d = fst d).
Proof.
  intros A s f dt nc te so Hd H. specialize (H 0 1%nat (mk_state 0 0 (fun _ => vzero) vzero)). cbv zeta in H. rewrite (proj2 (dumped_velocity_lags unit R A s f dt nc (fun u => u) te so 0 0 _)) in H. cbn in H. lra.
Qed.
Print Assumptions dumped_velocity_at_its_time_refuted.

(** One value: RK4 with steps 1/4 reaches 3/8 at time 1 where y(1) = 1/2. *)
Example clock_example : field (run_passes tab_RK4 4 Increment (1/4) 1 (fun t => t) (clock_terms true) (clock_source true) 0 4 (mk_state 0 0 (fun _ => vzero) (parabola 0))) tt = 3/8.
Proof. rewrite clock_source_value; [unfold parabola; cbn; field|lia|lia|apply explicit_schemes_have_advertised_order|intros; apply clock_rhs]. Qed.

(** Every theta > 0 (BackwardEuler, TrapeziumRule, ThetaMethod): the step is not the textbook step when the terms depend on time; with theta = 1/2 the error is of first order. *)
Theorem theta_time_varying_refuted :
  forall theta dt, 0 < theta -> 0 < dt -> exists (N P : R -> vec unit -> vec unit) t x t' x',
  theta_pass theta dt 1 N P vzero t x t' x' /\ ~ timed_theta_step theta (fun u => neg (N u)) (fun u => neg (P u)) dt t x x'.
Proof.
  intros theta dt Ht Hd. exists (fun u _ _ => - u), (fun _ _ => vzero), 0, vzero, (0 + dt), (fun _ => 0). split.
  - destruct (proj2 (proj1 (theta_schemes_are_textbook unit (fun _ _ => - 0) (fun _ => vzero) (dt / INR 1) vzero vzero 1 vzero (fun _ => 0)) theta)) as (src' & H).
    { exists (fun _ => 0). split; [|reflexivity]. unfold theta_step, neg. apply functional_extensionality. intros []. vunfold. ring. }
    exists vzero, src'. split; [exact H|reflexivity].
  - unfold timed_theta_step. intros H. apply (f_equal (fun g : vec unit => g tt)) in H. unfold neg in H. vunfold. assert (0 < dt * theta * dt) by (repeat apply Rmult_lt_0_compat; assumption). lra.
Qed.
Print Assumptions theta_time_varying_refuted.
