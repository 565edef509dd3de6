(** Convergence of linear multistep schemes: Taylor expansion, truncation error, stability (definitions in MultistepSpec.v). *)
From Verif Require Import Base Vec ConvergenceSpec ConvergenceFacts ConvergenceMain MultistepSpec IMEXProps.
Open Scope R_scope.

Lemma rsum_S_left n (f : nat -> R) : rsum (S n) f = f 0%nat + rsum n (fun k => f (S k)).
Proof. induction n as [|n IH]; [cbn; ring|]. cbn [rsum] in *. rewrite IH. ring. Qed.
Lemma rsum_abs n (f g : nat -> R) : (forall k, (k < n)%nat -> Rabs (f k) <= g k) -> Rabs (rsum n f) <= rsum n g.
Proof.
  induction n as [|n IH]; intros H; cbn [rsum]; [rewrite Rabs_R0; lra|]. eapply Rle_trans; [apply Rabs_triang|]. apply Rplus_le_compat; [apply IH; intros; apply H; lia|apply H; lia].
Qed.
Lemma rsum_le n (f g : nat -> R) : (forall k, (k < n)%nat -> f k <= g k) -> rsum n f <= rsum n g.
Proof. induction n as [|n IH]; intros H; cbn [rsum]; [lra|]. apply Rplus_le_compat; [apply IH; intros; apply H; lia|apply H; lia]. Qed.
Lemma rsum_nonneg' n (f : nat -> R) : (forall k, (k < n)%nat -> 0 <= f k) -> 0 <= rsum n f.
Proof. induction n as [|n IH]; intros H; cbn [rsum]; [lra|]. assert (0 <= f n) by (apply H; lia). assert (0 <= rsum n f) by (apply IH; intros; apply H; lia). lra. Qed.
Lemma rsum_minus n f g : rsum n (fun k => f k - g k) = rsum n f - rsum n g.
Proof. induction n as [|n IH]; cbn [rsum]; [ring|]. rewrite IH. ring. Qed.
Lemma rsum_const n x : rsum n (fun _ => x) = INR n * x.
Proof. induction n as [|n IH]; [cbn; ring|]. cbn [rsum]. rewrite IH, S_INR. ring. Qed.

(** Taylor polynomial with coefficients c_k *)
Definition tay (n : nat) (c : nat -> R) (u : R) : R := rsum n (fun k => u ^ k / INR (fact k) * c k).
Lemma fact_S k : INR (fact (S k)) = INR (S k) * INR (fact k).
Proof. rewrite <- mult_INR. reflexivity. Qed.
Lemma tay_deriv n c u : derivable_pt_lim (tay (S n) c) u (tay n (fun k => c (S k)) u).
Proof.
  induction n as [|n IH].
  - unfold tay. cbn [rsum]. apply (derivable_pt_lim_ext (fun _ => 0 + 1 / INR (fact 0) * c 0%nat)); [intros; cbn [pow]; reflexivity|]. apply derivable_pt_lim_const.
  - apply (derivable_pt_lim_ext (fun v => tay (S n) c v + (c (S n) / INR (fact (S n))) * v ^ S n)); [intros v; unfold tay; cbn [rsum]; unfold Rdiv; ring|].
    replace (tay (S n) (fun k => c (S k)) u) with (tay n (fun k => c (S k)) u + (c (S n) / INR (fact (S n))) * (INR (S n) * u ^ n)).
    + apply (derivable_pt_lim_plus (tay (S n) c) (fun v => (c (S n) / INR (fact (S n))) * v ^ S n)); [exact IH|]. apply (derivable_pt_lim_scal (fun v => v ^ S n)). apply derivable_pt_lim_pow.
    + unfold tay. cbn [rsum]. rewrite fact_S. pose proof (INR_fact_neq_0 n). pose proof (not_0_INR (S n) ltac:(lia)). field. split; assumption.
Qed.
Lemma tay_0 n c : tay (S n) c 0 = c 0%nat.
Proof.
  unfold tay. rewrite rsum_S_left. rewrite rsum_0; [cbn [pow fact INR]; field|]. intros k _. rewrite pow_ne_zero by lia. unfold Rdiv. ring.
Qed.

Section Taylor.
Context {I : Type}.
Variables (q : nat) (t0 T M : R) (Y : nat -> R -> vec I).
Hypothesis M0 : 0 <= M.
Hypothesis DY : forall k t i, (k <= q)%nat -> t0 <= t <= T -> derivable_pt_lim (fun u => Y k u i) t (Y (S k) t i).
Hypothesis BY : forall t, t0 <= t <= T -> sup_le (Y (S q) t) M.
Lemma taylor_bound n : forall a t h i, (a + n = S q)%nat -> t0 <= t -> 0 <= h -> t + h <= T -> Rabs (Y a (t + h) i - tay n (fun k => Y (a + k)%nat t i) h) <= M * h ^ n.
Proof.
  induction n as [|n IH]; intros a t h i Ha Ht Hh HT.
  - unfold tay. cbn [rsum]. rewrite Rminus_0_r, pow_O, Rmult_1_r. replace a with (S q) by lia. apply BY. lra.
  - destruct Hh as [Hh|<-].
    2:{ rewrite Rplus_0_r, tay_0, Nat.add_0_r. replace (Y a t i - Y a t i) with 0 by ring. rewrite Rabs_R0. apply Rmult_le_pos; [exact M0|apply pow_le; lra]. }
    set (g := fun u => Y a (t + u) i - tay (S n) (fun k => Y (a + k)%nat t i) u). set (g' := fun u => Y (S a) (t + u) i - tay n (fun k => Y (S a + k)%nat t i) u).
    assert (Dg : forall c, 0 <= c <= h -> derivable_pt_lim g c (g' c)).
    { intros c Hc. unfold g, g'. apply (derivable_pt_lim_minus (fun u => Y a (t + u) i) (tay (S n) (fun k => Y (a + k)%nat t i))).
      - replace (Y (S a) (t + c) i) with (Y (S a) (t + c) i * 1) by ring. apply (derivable_pt_lim_comp (fun u => t + u) (fun u => Y a u i)); [|apply DY; [lia|lra]].
        replace 1 with (0 + 1) by ring. apply (derivable_pt_lim_plus (fun _ => t) (fun u => u)); [apply derivable_pt_lim_const|apply derivable_pt_lim_id].
      - replace (tay n (fun k => Y (S a + k)%nat t i) c) with (tay n (fun k => Y (a + S k)%nat t i) c) by (apply rsum_ext; intros k _; replace (a + S k)%nat with (S a + k)%nat by lia; reflexivity). apply (tay_deriv n (fun k => Y (a + k)%nat t i)). }
    destruct (MVT_cor2 g g' 0 h ltac:(lra) Dg) as (c & Ec & Hc).
    assert (G0 : g 0 = 0) by (unfold g; rewrite Rplus_0_r, tay_0, Nat.add_0_r; ring).
    change (Rabs (g h) <= M * h ^ S n). rewrite G0, !Rminus_0_r in Ec. rewrite Ec, Rabs_mult, (Rabs_pos_eq h) by lra. replace (M * h ^ S n) with ((M * h ^ n) * h) by (cbn [pow]; ring).
    apply Rmult_le_compat_r; [lra|]. apply (Rle_trans _ (M * c ^ n)); [apply (IH (S a) t c i); try lra; lia|]. apply Rmult_le_compat_l; [exact M0|]. apply pow_incr. lra.
Qed.

(** ** Truncation error *)
Variables (k : nat) (c d : nat -> R).
Hypothesis oc : multistep_order k q c d.
Definition trunc_const : R := M * rsum (S k) (fun j => Rabs (c j) * INR j ^ S q + Rabs (d j) * INR j ^ q).
Lemma truncation t h : t0 <= t -> 0 <= h -> t + INR k * h <= T ->
  sup_le (vsum (S k) (fun j => c j *v Y 0%nat (t + INR j * h)) -v h *v vsum (S k) (fun j => d j *v Y 1%nat (t + INR j * h))) (trunc_const * h ^ S q).
Proof.
  intros Ht Hh HT i. assert (E : forall j, (j <= k)%nat -> 0 <= INR j * h /\ t + INR j * h <= T).
  { intros j Hj. pose proof (pos_INR j). assert (0 <= INR j * h) by (apply Rmult_le_pos; lra). split; [assumption|]. assert (INR j * h <= INR k * h) by (apply Rmult_le_compat_r; [exact Hh|apply le_INR; exact Hj]). lra. }
  set (P0 := fun j => tay (S q) (fun a => Y (0 + a)%nat t i) (INR j * h)). set (P1 := fun j => tay q (fun a => Y (1 + a)%nat t i) (INR j * h)).
  assert (Z : rsum (S k) (fun j => c j * P0 j) - h * rsum (S k) (fun j => d j * P1 j) = 0).
  { assert (A : rsum (S k) (fun j => c j * P0 j) = rsum (S q) (fun a => h ^ a / INR (fact a) * Y a t i * rsum (S k) (fun j => c j * INR j ^ a))).
    { unfold P0, tay. rewrite (rsum_ext (S k) _ (fun j => rsum (S q) (fun a => h ^ a / INR (fact a) * Y a t i * (c j * INR j ^ a)))).
      - rewrite rsum_swap. apply rsum_ext. intros a _. rewrite rsum_scal. reflexivity.
      - intros j _. rewrite <- rsum_scal. apply rsum_ext. intros a _. rewrite Rpow_mult_distr. cbn [Nat.add]. unfold Rdiv. ring. }
    assert (B : h * rsum (S k) (fun j => d j * P1 j) = rsum q (fun a => h ^ S a / INR (fact a) * Y (S a) t i * rsum (S k) (fun j => d j * INR j ^ a))).
    { unfold P1, tay. rewrite (rsum_ext (S k) _ (fun j => rsum q (fun a => h ^ a / INR (fact a) * Y (S a) t i * (d j * INR j ^ a)))).
      - rewrite rsum_swap. rewrite <- rsum_scal. apply rsum_ext. intros a _. rewrite rsum_scal. cbn [pow]. unfold Rdiv. ring.
      - intros j _. rewrite <- rsum_scal. apply rsum_ext. intros a _. rewrite Rpow_mult_distr. cbn [Nat.add]. unfold Rdiv. ring. }
    rewrite A, B, rsum_S_left. destruct oc as [O0 O1].
    rewrite (rsum_ext (S k) (fun j => c j * INR j ^ 0) c) by (intros; cbn [pow]; ring). rewrite O0.
    rewrite (rsum_ext q (fun a => h ^ S a / INR (fact (S a)) * Y (S a) t i * rsum (S k) (fun j => c j * INR j ^ S a)) (fun a => h ^ S a / INR (fact a) * Y (S a) t i * rsum (S k) (fun j => d j * INR j ^ a))); [ring|].
    intros a Ha. rewrite (O1 a Ha), fact_S. pose proof (INR_fact_neq_0 a). pose proof (not_0_INR (S a) ltac:(lia)). field. split; assumption. }
  unfold vsub, vscal at 2. rewrite !vsum_at.
  replace (rsum (S k) (fun j => (c j *v Y 0%nat (t + INR j * h)) i) - h * rsum (S k) (fun j => (d j *v Y 1%nat (t + INR j * h)) i))
    with (rsum (S k) (fun j => c j * (Y 0%nat (t + INR j * h) i - P0 j) - h * (d j * (Y 1%nat (t + INR j * h) i - P1 j)))).
  2:{ rewrite rsum_minus, rsum_scal. rewrite (rsum_ext (S k) (fun j => c j * (Y 0%nat (t + INR j * h) i - P0 j)) (fun j => c j * Y 0%nat (t + INR j * h) i - c j * P0 j)) by (intros; ring).
      rewrite (rsum_ext (S k) (fun j => d j * (Y 1%nat (t + INR j * h) i - P1 j)) (fun j => d j * Y 1%nat (t + INR j * h) i - d j * P1 j)) by (intros; ring). rewrite !rsum_minus.
      change (fun j => (c j *v Y 0%nat (t + INR j * h)) i) with (fun j => c j * Y 0%nat (t + INR j * h) i). change (fun j => (d j *v Y 1%nat (t + INR j * h)) i) with (fun j => d j * Y 1%nat (t + INR j * h) i). lra. }
  unfold trunc_const. rewrite Rmult_assoc, (Rmult_comm (rsum _ _)), <- Rmult_assoc, <- rsum_scal. apply rsum_abs. intros j Hj. destruct (E j ltac:(lia)) as [E1 E2].
  pose proof (taylor_bound (S q) 0 t (INR j * h) i ltac:(lia) Ht E1 E2) as T0. pose proof (taylor_bound q 1 t (INR j * h) i ltac:(lia) Ht E1 E2) as T1. fold (P0 j) in T0. fold (P1 j) in T1.
  unfold Rminus at 1. eapply Rle_trans; [apply Rabs_triang|]. rewrite Rabs_Ropp, !Rabs_mult, (Rabs_pos_eq h) by exact Hh.
  assert (Q0 : Rabs (c j) * Rabs (Y 0%nat (t + INR j * h) i - P0 j) <= Rabs (c j) * (M * (INR j * h) ^ S q)) by (apply Rmult_le_compat_l; [apply Rabs_pos|exact T0]).
  assert (Q1 : h * (Rabs (d j) * Rabs (Y 1%nat (t + INR j * h) i - P1 j)) <= h * (Rabs (d j) * (M * (INR j * h) ^ q))) by (apply Rmult_le_compat_l; [exact Hh|]; apply Rmult_le_compat_l; [apply Rabs_pos|exact T1]).
  rewrite Rpow_mult_distr in Q0, Q1. eapply Rle_trans; [apply Rplus_le_compat; [exact Q0|exact Q1]|]. right. cbn [pow]. ring.
Qed.
End Taylor.

(** the size of a vector *)
Lemma size_of {I} (fin : finite_index I) (v : vec I) : exists s, 0 <= s /\ sup_le v s /\ forall B, 0 <= B -> sup_le v B -> s <= B.
Proof.
  destruct (largest_vec 1 1 (fun _ _ => v) fin) as (s & S0 & S1 & S2). exists s. split; [exact S0|]. split; [apply (S1 0%nat 0%nat); lia|]. intros B B0 HB. destruct S2 as [->|(a & b & i & _ & _ & <-)]; [exact B0|apply HB].
Qed.

(** ** Error recursion *)
Section Recursion.
Context {I : Type}.
Variables (q k : nat) (c d : nat -> R) (F : vec I -> vec I) (y : R -> vec I) (t0 T L : R) (U : vec I -> Prop).
Hypothesis q1 : (1 <= q)%nat.
Hypothesis oc : multistep_order k q c d.
Hypothesis lip : lipschitz L F U.
Hypothesis sol : solution_of F y t0 T.
Hypothesis Uy : forall t, t0 <= t <= T -> U (y t).
Hypothesis sm : smooth_in_time q y t0 T.
(** the defect of the errors e_j = x_j - y(t_j) *)
Lemma error_step : exists K, 0 <= K /\ forall h (x : nat -> vec I) n (B : nat -> R), 0 < h -> t0 + INR (n + k) * h <= T -> (forall j, (j <= k)%nat -> U (x (n + j)%nat)) ->
  multistep k c d F h x n -> (forall j, (j <= k)%nat -> sup_le (x (n + j)%nat -v y (t0 + INR (n + j) * h)) (B j)) ->
  sup_le (vsum (S k) (fun j => c j *v (x (n + j)%nat -v y (t0 + INR (n + j) * h)))) (h * L * rsum (S k) (fun j => Rabs (d j) * B j) + K * h ^ S q).
Proof.
  destruct sm as (Y & M & M0 & Y0 & DY & BY). destruct lip as [L0 LP].
  exists (trunc_const q M k c d). split.
  { unfold trunc_const. apply Rmult_le_pos; [exact M0|]. apply rsum_nonneg'. intros j _. pose proof (Rabs_pos (c j)). pose proof (Rabs_pos (d j)). pose proof (pow_le (INR j) (S q) (pos_INR j)). pose proof (pow_le (INR j) q (pos_INR j)).
    assert (0 <= Rabs (c j) * INR j ^ S q) by (apply Rmult_le_pos; assumption). assert (0 <= Rabs (d j) * INR j ^ q) by (apply Rmult_le_pos; assumption). lra. }
  intros h x n B Hh HT HU Hs HB.
  assert (TM : forall j, (j <= k)%nat -> t0 <= t0 + INR (n + j) * h <= T).
  { intros j Hj. pose proof (pos_INR (n + j)). assert (0 <= INR (n + j) * h) by (apply Rmult_le_pos; lra). assert (INR (n + j) * h <= INR (n + k) * h) by (apply Rmult_le_compat_r; [lra|apply le_INR; lia]). lra. }
  set (t := t0 + INR n * h). assert (tj : forall j, t0 + INR (n + j) * h = t + INR j * h) by (intros j; unfold t; rewrite plus_INR; ring).
  assert (Y1 : forall s, t0 <= s <= T -> Y 1%nat s = F (y s)).
  { intros s Hs'. apply functional_extensionality. intros i. pose proof (DY 0%nat s i ltac:(lia) Hs') as A. pose proof (sol s i Hs') as A'.
    apply (uniqueness_limite (fun u => y u i) s); [|exact A']. eapply derivable_pt_lim_ext; [|exact A]. intros u. cbv beta. rewrite (Y0 u). reflexivity. }
  pose proof (pos_INR n) as pn. assert (nh : 0 <= INR n * h) by (apply Rmult_le_pos; lra).
  pose proof (truncation q t0 T M Y M0 DY BY k c d oc t h ltac:(unfold t; lra) ltac:(lra)) as TR. rewrite <- tj in TR. specialize (TR HT).
  apply (sup_ext (h *v vsum (S k) (fun j => d j *v (F (x (n + j)%nat) -v F (y (t0 + INR (n + j) * h)))) -v
     (vsum (S k) (fun j => c j *v Y 0%nat (t + INR j * h)) -v h *v vsum (S k) (fun j => d j *v Y 1%nat (t + INR j * h))))).
  - intros i. unfold multistep in Hs.
    rewrite (vsum_ext (S k) (fun j => c j *v (x (n + j)%nat -v y (t0 + INR (n + j) * h))) (fun j => c j *v x (n + j)%nat -v c j *v y (t0 + INR (n + j) * h))) by (intros; vring).
    rewrite (vsum_ext (S k) (fun j => d j *v (F (x (n + j)%nat) -v F (y (t0 + INR (n + j) * h)))) (fun j => d j *v F (x (n + j)%nat) -v d j *v F (y (t0 + INR (n + j) * h)))) by (intros; vring).
    rewrite !vsum_sub, Hs.
    rewrite (vsum_ext (S k) (fun j => c j *v Y 0%nat (t + INR j * h)) (fun j => c j *v y (t0 + INR (n + j) * h))) by (intros; rewrite Y0, tj; reflexivity).
    rewrite (vsum_ext (S k) (fun j => d j *v Y 1%nat (t + INR j * h)) (fun j => d j *v F (y (t0 + INR (n + j) * h)))) by (intros j Hj; rewrite <- tj, Y1 by (apply TM; lia); reflexivity).
    generalize (vsum (S k) (fun j => d j *v F (x (n + j)%nat))) (vsum (S k) (fun j => d j *v F (y (t0 + INR (n + j) * h)))) (vsum (S k) (fun j => c j *v y (t0 + INR (n + j) * h))). intros. vunfold. ring.
  - apply sup_sub; [|exact TR]. intros i. unfold vscal at 1. rewrite vsum_at, Rabs_mult, (Rabs_pos_eq h) by lra. rewrite Rmult_assoc. apply Rmult_le_compat_l; [lra|]. rewrite <- rsum_scal. apply rsum_abs. intros j Hj.
    unfold vscal. rewrite Rabs_mult. rewrite (Rmult_comm L), Rmult_assoc. apply Rmult_le_compat_l; [apply Rabs_pos|]. rewrite (Rmult_comm (B j)). apply LP; [apply HU; lia|apply Uy; apply TM; lia|apply HB; lia].
Qed.

End Recursion.
