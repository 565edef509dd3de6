(** Convergence of Adams methods and BDF2 from given starting values (definitions in MultistepSpec.v, MultilevelSpec.v). *)
From Verif Require Import Base Vec ConvergenceSpec ConvergenceFacts ConvergenceMain MultistepSpec MultistepFacts MultilevelSpec RKProps IMEXProps.
Open Scope R_scope.

Definition adams_c (k j : nat) : R := if Nat.eqb j k then 1 else if Nat.eqb (S j) k then -1 else 0.
Definition adams_d (k : nat) (b : nat -> R) (bl : R) (j : nat) : R := if Nat.eqb j k then bl else b (k - 1 - j)%nat.
Lemma vsum_rev {I} n (f : nat -> vec I) : vsum n f = vsum n (fun j => f (n - 1 - j)%nat).
Proof.
  induction n as [|n IH]; [reflexivity|]. rewrite (vsum_S_left n (fun j => f (S n - 1 - j)%nat)). cbn [vsum]. rewrite IH. replace (S n - 1 - 0)%nat with n by lia.
  rewrite (vsum_ext n (fun k => f (S n - 1 - S k)%nat) (fun j => f (n - 1 - j)%nat)) by (intros j Hj; f_equal; lia). vring.
Qed.
Lemma adams_c_sum {I} k (z : nat -> vec I) : (1 <= k)%nat -> vsum (S k) (fun j => adams_c k j *v z j) = z k -v z (k - 1)%nat.
Proof.
  intros Hk. destruct k as [|k]; [lia|]. cbn [vsum]. rewrite (vsum_0 k); [|intros j Hj; unfold adams_c; destruct (Nat.eqb_spec j (S k)); [lia|]; destruct (Nat.eqb_spec (S j) (S k)); [lia|vring]].
  unfold adams_c. rewrite !Nat.eqb_refl. destruct (Nat.eqb_spec k (S k)); [lia|]. replace (S k - 1)%nat with k by lia. vring.
Qed.
Lemma adams_is_multistep {I} k b bl (F : vec I -> vec I) h (x : nat -> vec I) n : (1 <= k)%nat ->
  adams_step k b bl F h (fun m => x (n + (k - 1 - m))%nat) (x (n + k)%nat) -> multistep k (adams_c k) (adams_d k b bl) F h x n.
Proof.
  intros Hk E. unfold multistep. rewrite (adams_c_sum k (fun j => x (n + j)%nat)) by exact Hk. cbn [vsum]. unfold adams_d at 2. rewrite Nat.eqb_refl.
  rewrite (vsum_rev k (fun j => adams_d k b bl j *v F (x (n + j)%nat))).
  rewrite (vsum_ext k (fun j => adams_d k b bl (k - 1 - j)%nat *v F (x (n + (k - 1 - j))%nat)) (fun m => b m *v F (x (n + (k - 1 - m))%nat))).
  - unfold adams_step in E. rewrite E at 1. replace (k - 1 - 0)%nat with (k - 1)%nat by lia. generalize (vsum k (fun m => b m *v F (x (n + (k - 1 - m))%nat))) (F (x (n + k)%nat)). intros. vring.
  - intros j Hj. unfold adams_d. destruct (Nat.eqb_spec (k - 1 - j) k); [lia|]. do 2 f_equal. lia.
Qed.

Section Stability.
Context {I : Type}.
Variables (q : nat) (F : vec I -> vec I) (y : R -> vec I) (t0 T L : R) (U : vec I -> Prop).
Hypothesis fin : finite_index I.
Hypothesis q1 : (1 <= q)%nat.
Hypothesis lip : lipschitz L F U.
Hypothesis sol : solution_of F y t0 T.
Hypothesis Uy : forall t, t0 <= t <= T -> U (y t).
Hypothesis sm : smooth_in_time q y t0 T.
Notation err x h j := (x j -v y (t0 + INR j * h)).

Lemma adams_bound k b bl : (1 <= k)%nat -> multistep_order k q (adams_c k) (adams_d k b bl) ->
  exists D K h0, 0 <= D /\ 0 <= K /\ 0 < h0 /\ forall h (x : nat -> vec I) N e0, 0 < h <= h0 -> t0 + INR N * h <= T -> 0 <= e0 -> (forall j, (j <= N)%nat -> U (x j)) ->
  (forall j, (j < k)%nat -> (j <= N)%nat -> sup_le (err x h j) e0) ->
  (forall n, (n + k <= N)%nat -> adams_step k b bl F h (fun m => x (n + (k - 1 - m))%nat) (x (n + k)%nat)) ->
  sup_le (err x h N) (exp (D * (INR N * h)) * (e0 + INR N * h * K * h ^ q)).
Proof.
  intros Hk oc. destruct (error_step q k (adams_c k) (adams_d k b bl) F y t0 T L U q1 oc lip sol Uy sm) as (K & K0 & ES). destruct lip as [L0 _].
  set (S0 := rsum (S k) (fun j => Rabs (adams_d k b bl j))). assert (S1 : 0 <= S0) by (apply rsum_nonneg'; intros; apply Rabs_pos). assert (LS : 0 <= L * S0) by (apply Rmult_le_pos; assumption).
  exists (2 * (L * S0)), (2 * K), (1 / (2 * (L * S0 + 1))). split; [lra|]. split; [lra|]. split; [apply Rdiv_lt_0_compat; lra|].
  intros h x N e0 Hh HT E0 HU Hst Hrun.
  assert (Z : h * L * S0 <= 1 / 2).
  { apply (Rle_trans _ ((1 / (2 * (L * S0 + 1))) * (L * S0))); [rewrite Rmult_assoc; apply Rmult_le_compat_r; lra|]. apply (Rmult_le_reg_r (2 * (L * S0 + 1))); [lra|]. field_simplify; lra. }
  assert (Z0 : 0 <= h * L * S0) by (rewrite Rmult_assoc; apply Rmult_le_pos; lra). set (z := h * L * S0) in *.
  set (tau := K * h ^ S q). assert (tau0 : 0 <= tau) by (apply Rmult_le_pos; [exact K0|apply pow_le; lra]).
  set (B := fix B (j : nat) : R := match j with O => e0 | S j => (1 + 2 * (L * S0) * h) * B j + (2 * K) * h * h ^ q end).
  assert (BS : forall j, B (S j) = (1 + 2 * z) * B j + 2 * tau) by (intros j; cbn [B]; fold B; unfold z, tau; cbn [pow]; ring).
  assert (B0 : forall j, 0 <= B j) by (induction j as [|j IH]; [exact E0|]; rewrite BS; assert (0 <= (1 + 2 * z) * B j) by (apply Rmult_le_pos; lra); lra).
  assert (BM : forall j, B j <= B (S j)) by (intros j; rewrite BS; specialize (B0 j); assert (0 <= z * B j) by (apply Rmult_le_pos; assumption); lra).
  assert (BM' : forall i j, (i <= j)%nat -> B i <= B j) by (intros i j H; induction H as [|j H IH]; [lra|]; specialize (BM j); lra).
  assert (IND : forall j, (j <= N)%nat -> forall i, (i <= j)%nat -> sup_le (err x h i) (B j)).
  { induction j as [|j IH]; intros Hj i Hi.
    - assert (i = 0)%nat by lia. subst i. apply Hst; lia.
    - specialize (IH ltac:(lia)). destruct (Nat.eq_dec i (S j)) as [->|]; [|eapply sup_mono; [apply IH; lia|apply BM]].
      destruct (Nat.lt_ge_cases (S j) k) as [Hlt|Hge]; [eapply sup_mono; [apply Hst; assumption|]; change e0 with (B 0%nat); apply BM'; lia|].
      set (n := (S j - k)%nat). assert (En : S j = (n + k)%nat) by (unfold n; lia). rewrite En in *.
      destruct (size_of fin (err x h (n + k)%nat)) as (kap & Q0 & Q1 & Q2).
      pose proof (adams_is_multistep k b bl F h x n Hk (Hrun n ltac:(lia))) as MS.
      specialize (ES h x n (fun i => if Nat.eqb i k then kap else B j) ltac:(lra)). 
      assert (HT' : t0 + INR (n + k) * h <= T) by (assert (INR (n + k) * h <= INR N * h) by (apply Rmult_le_compat_r; [lra|apply le_INR; lia]); lra).
      specialize (ES HT' ltac:(intros; apply HU; lia) MS).
      assert (HB : forall i, (i <= k)%nat -> sup_le (err x h (n + i)%nat) (if Nat.eqb i k then kap else B j)) by (intros i' Hi'; destruct (Nat.eqb_spec i' k) as [->|]; [exact Q1|apply IH; lia]).
      specialize (ES HB). rewrite (adams_c_sum k (fun j => err x h (n + j)%nat)) in ES by exact Hk.
      apply (sup_mono _ kap); [exact Q1|]. rewrite <- En. rewrite BS. assert (BJ := B0 j). assert (0 <= z * B j) by (apply Rmult_le_pos; assumption).
      destruct (Rle_dec kap (B j)) as [Hle|Hgt]; [lra|].
      assert (KB : kap <= B j + (z * kap + tau)).
      { apply Q2; [assert (0 <= z * kap) by (apply Rmult_le_pos; assumption); lra|].
        apply (sup_ext (err x h (n + (k - 1))%nat +v (err x h (n + k)%nat -v err x h (n + (k - 1))%nat))); [intros c; vunfold; ring|]. apply sup_add; [apply IH; lia|].
        eapply sup_mono; [exact ES|]. fold tau. apply Rplus_le_compat_r. unfold z, S0. rewrite (Rmult_assoc (h * L)). apply Rmult_le_compat_l; [apply Rmult_le_pos; lra|]. rewrite (Rmult_comm _ kap), <- rsum_scal. apply rsum_le. intros i' _. rewrite (Rmult_comm kap). apply Rmult_le_compat_l; [apply Rabs_pos|].
        destruct (Nat.eqb i' k); lra. }
      apply (Rmult_le_reg_l (1 - z)); [lra|]. assert (0 <= B j * z * (1 - 2 * z)) by (apply Rmult_le_pos; [apply Rmult_le_pos; lra|lra]). assert (0 <= tau * (1 - 2 * z)) by (apply Rmult_le_pos; lra).
      replace ((1 - z) * ((1 + 2 * z) * B j + 2 * tau)) with (B j + tau + B j * z * (1 - 2 * z) + tau * (1 - 2 * z)) by ring. lra. }
  eapply sup_mono; [apply (IND N (Nat.le_refl N) N (Nat.le_refl N))|].
  pose proof (gronwall 1 ltac:(lia) (2 * (L * S0)) (2 * K) e0 (h ^ q) (fun _ => h) B N ltac:(lra) ltac:(lra) E0 ltac:(apply pow_le; lra) eq_refl ltac:(intros; lra)) as G. rewrite rsum_const in G.
  destruct G as [_ [_ G]]; [|exact G]. intros j _. split; [apply B0|]. right. reflexivity.
Qed.

Definition bdf2_c (j : nat) : R := match j with 0%nat => 1/3 | 1%nat => -(4/3) | _ => 1 end.
Definition bdf2_d (j : nat) : R := match j with 2%nat => 2/3 | _ => 0 end.
Lemma bdf2_bound : multistep_order 2 q bdf2_c bdf2_d ->
  exists D K h0, 0 <= D /\ 0 <= K /\ 0 < h0 /\ forall h (x : nat -> vec I) N e0, 0 < h <= h0 -> t0 + INR N * h <= T -> 0 <= e0 -> (forall j, (j <= N)%nat -> U (x j)) ->
  (forall j, (j < 2)%nat -> (j <= N)%nat -> sup_le (err x h j) e0) ->
  (forall n, (n + 2 <= N)%nat -> bdf2_step F h (x n) (x (S n)) (x (S (S n)))) ->
  sup_le (err x h N) (3 * (exp (D * (INR N * h)) * (2 * e0 + INR N * h * K * h ^ q))).
Proof.
  intros oc. destruct (error_step q 2 bdf2_c bdf2_d F y t0 T L U q1 oc lip sol Uy sm) as (K & K0 & ES). destruct lip as [L0 _].
  exists (8 / 3 * L), (2 * K), (1 / (2 * (L + 1))). split; [lra|]. split; [lra|]. split; [apply Rdiv_lt_0_compat; lra|].
  intros h x N e0 Hh HT E0 HU Hst Hrun.
  assert (Z : h * L <= 1 / 2).
  { apply (Rle_trans _ ((1 / (2 * (L + 1))) * L)); [apply Rmult_le_compat_r; lra|]. apply (Rmult_le_reg_r (2 * (L + 1))); [lra|]. field_simplify; lra. }
  assert (Z0 : 0 <= h * L) by (apply Rmult_le_pos; lra). set (z := h * L) in *.
  set (tau := K * h ^ S q). assert (tau0 : 0 <= tau) by (apply Rmult_le_pos; [exact K0|apply pow_le; lra]).
  set (V := fix V (j : nat) : R := match j with O => 2 * e0 | S j => (1 + 8 / 3 * L * h) * V j + (2 * K) * h * h ^ q end).
  assert (VS : forall j, V (S j) = (1 + 8 / 3 * z) * V j + 2 * tau) by (intros j; cbn [V]; fold V; unfold z, tau; cbn [pow]; field).
  assert (V0 : forall j, 0 <= V j) by (induction j as [|j IH]; [cbn; lra|]; rewrite VS; assert (0 <= (1 + 8 / 3 * z) * V j) by (apply Rmult_le_pos; lra); lra).
  assert (VM : forall j, V j <= V (S j)) by (intros j; rewrite VS; specialize (V0 j); assert (0 <= z * V j) by (apply Rmult_le_pos; assumption); lra).
  assert (VM' : forall j, 2 * e0 <= V j) by (induction j as [|j IH]; [cbn; lra|]; specialize (VM j); lra).
  assert (IND : forall j, (S j <= N)%nat -> sup_le (err x h j) (3 * V j) /\ sup_le (err x h (S j)) (3 * V j) /\ sup_le (err x h (S j) -v (1/3) *v err x h j) (V j)).
  { induction j as [|j IH]; intros Hj.
    - pose proof (Hst 0%nat ltac:(lia) ltac:(lia)) as A0. pose proof (Hst 1%nat ltac:(lia) ltac:(lia)) as A1. cbn [V]. split; [eapply sup_mono; [exact A0|lra]|]. split; [eapply sup_mono; [exact A1|lra]|].
      eapply sup_mono; [apply sup_sub; [exact A1|apply sup_scal; exact A0]|]. rewrite (Rabs_pos_eq (1/3)) by lra. lra.
    - destruct (IH ltac:(lia)) as (I0 & I1 & I2). specialize (VM j) as VMj. specialize (V0 j) as V0j. split; [eapply sup_mono; [exact I1|lra]|].
      assert (MS : multistep 2 bdf2_c bdf2_d F h x j).
      { unfold multistep. cbn [vsum bdf2_c bdf2_d]. replace (j + 0)%nat with j by lia. replace (j + 1)%nat with (S j) by lia. replace (j + 2)%nat with (S (S j)) by lia.
        pose proof (Hrun j ltac:(lia)) as E. unfold bdf2_step in E. apply functional_extensionality. intros c. apply (f_equal (fun v => v c)) in E. revert E. generalize (F (x j)) (F (x (S j))) (F (x (S (S j)))). intros a1 a2 a3 E. vunfold. lra. }
      destruct (size_of fin (err x h (S (S j)))) as (kap & Q0 & Q1 & Q2).
      assert (HT' : t0 + INR (j + 2) * h <= T) by (assert (INR (j + 2) * h <= INR N * h) by (apply Rmult_le_compat_r; [lra|apply le_INR; lia]); lra).
      specialize (ES h x j (fun i => match i with 2%nat => kap | _ => 3 * V j end) ltac:(lra) HT' ltac:(intros; apply HU; lia) MS).
      assert (HB : forall i, (i <= 2)%nat -> sup_le (err x h (j + i)%nat) (match i with 2%nat => kap | _ => 3 * V j end)).
      { intros i Hi. destruct i as [|[|[|i]]]; [replace (j + 0)%nat with j by lia; exact I0|replace (j + 1)%nat with (S j) by lia; exact I1|replace (j + 2)%nat with (S (S j)) by lia; exact Q1|lia]. }
      specialize (ES HB). cbn [vsum rsum bdf2_c bdf2_d] in ES. replace (j + 0)%nat with j in ES by lia. replace (j + 1)%nat with (S j) in ES by lia. replace (j + 2)%nat with (S (S j)) in ES by lia. fold tau in ES. fold z in ES.
      assert (UB : forall W, 0 <= W -> sup_le (err x h (S (S j))) W -> sup_le (err x h (S (S j)) -v (1/3) *v err x h (S j)) (V j + 2/3 * z * kap + tau)).
      { intros W W0 HW. apply (sup_ext ((err x h (S j) -v (1/3) *v err x h j) +v (((vzero +v (1/3) *v err x h j) +v (-(4/3)) *v err x h (S j)) +v 1 *v err x h (S (S j))))); [intros c; vunfold; field|].
        eapply sup_mono; [apply sup_add; [exact I2|exact ES]|]. rewrite Rabs_R0, (Rabs_pos_eq (2/3)) by lra. lra. }
      specialize (UB kap Q0 Q1).
      assert (KB : kap <= V j + (V j + 2/3 * z * kap + tau)).
      { apply Q2; [assert (0 <= z * kap) by (apply Rmult_le_pos; assumption); lra|].
        apply (sup_ext ((1/3) *v err x h (S j) +v (err x h (S (S j)) -v (1/3) *v err x h (S j)))); [intros c; vunfold; ring|].
        apply sup_add; [|exact UB]. eapply sup_mono; [apply sup_scal; exact I1|]. rewrite (Rabs_pos_eq (1/3)) by lra. lra. }
      assert (zk : z * kap <= 1/2 * kap) by (apply Rmult_le_compat_r; assumption).
      assert (KB2 : kap <= 4 * V j + 2 * tau) by lra.
      assert (zk2 : z * kap <= z * (4 * V j + 2 * tau)) by (apply Rmult_le_compat_l; assumption).
      assert (ztau : z * tau <= 1/2 * tau) by (apply Rmult_le_compat_r; assumption).
      assert (UV : V j + 2/3 * z * kap + tau <= V (S j)) by (rewrite VS; lra).
      split; [|eapply sup_mono; [exact UB|exact UV]].
      apply (sup_mono _ kap); [exact Q1|]. lra. }
  destruct (Nat.eq_dec N 0) as [->|HN].
  - cbn [INR]. rewrite Rmult_0_l, Rmult_0_r, exp_0. eapply sup_mono; [pose proof (Hst 0%nat ltac:(lia) ltac:(lia)) as A0; cbn [INR] in A0; rewrite Rmult_0_l in A0; exact A0|]. assert (0 <= 0 * (2 * K) * h ^ q) by lra. lra.
  - destruct N as [|N]; [lia|]. destruct (IND N (Nat.le_refl (S N))) as (_ & I1 & _). eapply sup_mono; [exact I1|]. apply Rmult_le_compat_l; [lra|].
    pose proof (gronwall 1 ltac:(lia) (8 / 3 * L) (2 * K) (2 * e0) (h ^ q) (fun _ => h) V (S N) ltac:(lra) ltac:(lra) ltac:(lra) ltac:(apply pow_le; lra) eq_refl ltac:(intros; lra)) as G. rewrite rsum_const in G.
    destruct G as [_ [_ G]]; [intros j _; split; [apply V0|right; reflexivity]|]. eapply Rle_trans; [apply VM|exact G].
Qed.
End Stability.
