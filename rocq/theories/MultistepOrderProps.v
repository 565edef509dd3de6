(** C139.  Orders of convergence that fail, with exact errors (definitions in MultistepSpec.v and MultistepProps.v). *)
From Coq Require Import Lra Lia.
From Verif Require Import Base Vec MultilevelSpec Multilevel MultilevelFacts MultilevelProps RKProps IMEXProps ConvergenceSpec ConvergenceFacts ConvergenceMain MultistepSpec MultistepFacts MultistepMain MultistepProps.
Open Scope R_scope.

(** all that the convergence theorems ask of the problem *)
Definition well_posed {I} (N : vec I -> vec I) (y : R -> vec I) (t0 T : R) (U : vec I -> Prop) : Prop :=
  finite_index I /\ (exists L, lipschitz L (F_of N) U) /\ solution_of (F_of N) y t0 T /\ (forall t, t0 <= t <= T -> U (y t)) /\ forall q, smooth_in_time q y t0 T.

(** dy/dt = (2 s, 1) with y = (t^2, t), and dy/dt = (3 s^2, 1) with y = (t^3, t), where s is the second component *)
Definition square_solution (t : R) : vec bool := fun b => if b then t ^ 2 else t.
Definition cubeN (v : vec bool) : vec bool := fun b => if b then - (3 * (v false) ^ 2) else -1.
Definition cube_solution (t : R) : vec bool := fun b => if b then t ^ 3 else t.
Definition box (v : vec bool) : Prop := forall b, Rabs (v b) <= 2.

Lemma bool_finite : finite_index bool.
Proof. exists [true; false]. intros [|]; cbn; tauto. Qed.
Lemma dlim_eq (f : R -> R) x l l' : derivable_pt_lim f x l -> l = l' -> derivable_pt_lim f x l'.
Proof. intros H <-. exact H. Qed.
Lemma dlim_pow n t a : derivable_pt_lim (fun u => a * u ^ S n) t (a * (INR (S n) * t ^ n)).
Proof. apply (derivable_pt_lim_scal (fun u => u ^ S n) a t). apply (derivable_pt_lim_pow t (S n)). Qed.
Lemma dlim_ext' (f g : R -> R) x l : (forall u, f u = g u) -> derivable_pt_lim f x l -> derivable_pt_lim g x l.
Proof. intros E H eps He. destruct (H eps He) as [d Hd]. exists d. intros k. rewrite <- !E. apply Hd. Qed.
Lemma dlim_id' t : derivable_pt_lim (fun u => u) t 1.
Proof. apply derivable_pt_lim_id. Qed.
Lemma dlim_0 t c : derivable_pt_lim (fun _ => c) t 0.
Proof. apply derivable_pt_lim_const. Qed.

Ltac dpow n a := first [eapply dlim_eq; [eapply dlim_ext'; [|exact (dlim_pow n _ a)]; intros; cbn [pow INR]; ring|cbn [pow INR]; ring]].
Lemma square_well_posed : well_posed quadF square_solution 0 1 everywhere.
Proof.
  split; [exact bool_finite|]. split.
  { exists 2. split; [lra|]. intros x z rho _ _ H. assert (r0 : 0 <= rho) by (eapply Rle_trans; [apply Rabs_pos|exact (H false)]). intros [|]; unfold rhs_of, quadF; vunfold; cbv beta iota.
    - replace (-1 * - (2 * x false) - -1 * - (2 * z false)) with (2 * (x false - z false)) by ring. rewrite Rabs_mult, (Rabs_pos_eq 2) by lra. apply Rmult_le_compat_l; [lra|]. apply (H false).
    - replace (-1 * -1 - -1 * -1) with 0 by ring. rewrite Rabs_R0. lra. }
  split. { intros t [|] _; unfold square_solution, rhs_of, quadF; vunfold; cbv beta iota; [dpow 1%nat 1|eapply dlim_eq; [apply dlim_id'|ring]]. }
  split; [intros; exact Logic.I|]. intros q.
  exists (fun (k : nat) (t : R) (b : bool) => if b then match k with 0%nat => t ^ 2 | 1%nat => 2 * t | 2%nat => 2 | _ => 0 end else match k with 0%nat => t | 1%nat => 1 | _ => 0 end), 2.
  split; [lra|]. split; [intros t; apply functional_extensionality; intros [|]; reflexivity|]. split.
  - intros k t [|] _ _; [destruct k as [|[|[|k]]]|destruct k as [|[|k]]]; cbv beta iota; [dpow 1%nat 1|dpow 0%nat 2|apply dlim_0|apply dlim_0|apply dlim_id'|apply dlim_0|apply dlim_0].
  - intros t Ht [|]; cbv beta iota.
    + destruct q as [|[|q]]; [rewrite Rabs_pos_eq; lra|rewrite Rabs_pos_eq; lra|rewrite Rabs_R0; lra].
    + destruct q as [|q]; [rewrite Rabs_R1; lra|rewrite Rabs_R0; lra].
Qed.
Lemma cube_well_posed : well_posed cubeN cube_solution 0 1 box.
Proof.
  split; [exact bool_finite|]. split.
  { exists 12. split; [lra|]. intros x z rho Hx Hz H. assert (r0 : 0 <= rho) by (eapply Rle_trans; [apply Rabs_pos|exact (H false)]). intros [|]; unfold rhs_of, cubeN; vunfold; cbv beta iota.
    - replace (-1 * - (3 * x false ^ 2) - -1 * - (3 * z false ^ 2)) with (3 * (x false + z false) * (x false - z false)) by ring. rewrite Rabs_mult. apply Rmult_le_compat; [apply Rabs_pos|apply Rabs_pos| |apply (H false)].
      rewrite Rabs_mult, (Rabs_pos_eq 3) by lra. pose proof (Rabs_triang (x false) (z false)). pose proof (Hx false). pose proof (Hz false). lra.
    - replace (-1 * -1 - -1 * -1) with 0 by ring. rewrite Rabs_R0. lra. }
  split. { intros t [|] _; unfold cube_solution, rhs_of, cubeN; vunfold; cbv beta iota; [dpow 2%nat 1|eapply dlim_eq; [apply dlim_id'|ring]]. }
  split. { intros t Ht [|]; unfold cube_solution; rewrite Rabs_pos_eq; try lra; [|apply pow_le; lra]. pose proof (pow_incr t 1 3 ltac:(lra)). rewrite pow1 in H. lra. }
  intros q.
  exists (fun (k : nat) (t : R) (b : bool) => if b then match k with 0%nat => t ^ 3 | 1%nat => 3 * t ^ 2 | 2%nat => 6 * t | 3%nat => 6 | _ => 0 end else match k with 0%nat => t | 1%nat => 1 | _ => 0 end), 6.
  split; [lra|]. split; [intros t; apply functional_extensionality; intros [|]; reflexivity|]. split.
  - intros k t [|] _ _; [destruct k as [|[|[|[|k]]]]|destruct k as [|[|k]]]; cbv beta iota; [dpow 2%nat 1|dpow 1%nat 3|dpow 0%nat 6|apply dlim_0|apply dlim_0|apply dlim_id'|apply dlim_0|apply dlim_0].
  - intros t Ht [|]; cbv beta iota.
    + destruct q as [|[|[|q]]]; [|rewrite Rabs_pos_eq; lra|rewrite Rabs_pos_eq; lra|rewrite Rabs_R0; lra]. pose proof (pow_incr t 1 2 ltac:(lra)) as Q. rewrite pow1 in Q. pose proof (pow_le t 2 ltac:(lra)). rewrite Rabs_pos_eq; lra.
    + destruct q as [|q]; [rewrite Rabs_R1; lra|rewrite Rabs_R0; lra].
Qed.

(** ** Exact runs *)
Definition ab_square (k : nat) (h : R) (j : nat) : vec bool := fun b => if b then (INR j * h) ^ 2 - INR (Nat.min j (k - 1)) * h ^ 2 else INR j * h.
Ltac comp := apply functional_extensionality; intros [|].
Lemma ab_square_run k h n : (k = 3 \/ k = 4)%nat -> ml_run CAB k quadF h (ab_square k h) n.
Proof.
  intros Hk. apply ab_run; [lia|]. intros j Hj. split; intros Hjk.
  - unfold forward_euler_step, rhs_of, quadF, ab_square. rewrite !Nat.min_l by lia. rewrite S_INR. comp; vunfold; cbv beta iota; ring.
  - destruct Hk as [-> | ->].
    + assert (E : j = (j - 2 + 2)%nat) by lia. revert E. generalize (j - 2)%nat. intros i ->. unfold adams_step. cbn [vsum ab_coefficients nth]. unfold rhs_of, quadF, ab_square.
      replace (i + 2 - 0)%nat with (S (S i)) by lia. replace (i + 2 - 1)%nat with (S i) by lia. replace (i + 2 - 2)%nat with i by lia. replace (S (i + 2)) with (S (S (S i))) by lia. rewrite !Nat.min_r by lia. rewrite !S_INR. comp; vunfold; cbv beta iota; cbn [INR Nat.sub]; field.
    + assert (E : j = (j - 3 + 3)%nat) by lia. revert E. generalize (j - 3)%nat. intros i ->. unfold adams_step. cbn [vsum ab_coefficients nth]. unfold rhs_of, quadF, ab_square.
      replace (i + 3 - 0)%nat with (S (S (S i))) by lia. replace (i + 3 - 1)%nat with (S (S i)) by lia. replace (i + 3 - 2)%nat with (S i) by lia. replace (i + 3 - 3)%nat with i by lia. replace (S (i + 3)) with (S (S (S (S i)))) by lia. rewrite !Nat.min_r by lia. rewrite !S_INR. comp; vunfold; cbv beta iota; cbn [INR Nat.sub]; field.
Qed.
Definition am_cube (h : R) (j : nat) : vec bool := fun b => if b then (INR j * h) ^ 3 + INR (Nat.min j 2) * (h ^ 3 / 2) else INR j * h.
Lemma am_cube_run h n : ml_run CAM 3 cubeN h (am_cube h) n.
Proof.
  apply am_run; [lia|]. intros j Hj. split; intros Hjk.
  - unfold trapezium_step, rhs_of, cubeN, am_cube. rewrite !Nat.min_l by lia. rewrite S_INR. comp; vunfold; cbv beta iota; field.
  - assert (E : j = (j - 2 + 2)%nat) by lia. revert E. generalize (j - 2)%nat. intros i ->. unfold adams_step. cbn [vsum am_coefficients fst snd nth]. unfold rhs_of, cubeN, am_cube.
    replace (i + 2 - 0)%nat with (S (S i)) by lia. replace (i + 2 - 1)%nat with (S i) by lia. replace (i + 2 - 2)%nat with i by lia. replace (S (i + 2)) with (S (S (S i))) by lia. rewrite !Nat.min_r by lia. rewrite !S_INR. comp; vunfold; cbv beta iota; cbn [INR Nat.sub]; field.
Qed.
Definition euler_square (h : R) (j : nat) : vec bool := fun b => if b then (INR j * h) ^ 2 - INR j * h ^ 2 else INR j * h.
Lemma leapfrog_square_run h n : ml_run CLeapfrog 0 quadF h (euler_square h) n.
Proof.
  apply leapfrog_run. intros j _. unfold forward_euler_step, rhs_of, quadF, euler_square. rewrite S_INR. comp; vunfold; cbv beta iota; ring.
Qed.
(** if runs from the exact initial value have the error g h n, this bounds g *)
Lemma error_size {I} p (run : R -> (nat -> vec I) -> nat -> Prop) y T U x (i : I) :
  run_converges p run y 0 T U -> (forall h n, 0 < h -> INR n * h <= T -> run h (x h) n /\ x h 0%nat = y 0 /\ forall j, (j <= n)%nat -> U (x h j)) ->
  exists C h0, 0 <= C /\ 0 < h0 /\ forall h n, 0 < h <= h0 -> INR n * h <= T -> Rabs (x h n i - y (INR n * h) i) <= C * h ^ p.
Proof.
  intros (C & h0 & C0 & H0 & H) Hx. exists C, h0. split; [exact C0|]. split; [exact H0|]. intros h n Hh HT. destruct (Hx h n ltac:(lra) HT) as (A & B & D).
  specialize (H h (x h) n 0 Hh ltac:(rewrite Rplus_0_l; exact HT) A D ltac:(lra)). rewrite !Rplus_0_l in H. apply H. intros c. rewrite B. vunfold. rewrite (Rminus_diag_eq _ _ eq_refl), Rabs_R0. lra.
Qed.

Lemma INR_above x : exists n, x < INR n.
Proof. destruct (archimed x) as [H _]. exists (Z.to_nat (up x)). destruct (Z.le_gt_cases 0 (up x)) as [Hz|Hz]; [rewrite INR_IZR_INZ, Z2Nat.id by exact Hz; lra|]. apply IZR_lt in Hz. pose proof (pos_INR (Z.to_nat (up x))). lra. Qed.
Lemma large_n C h0 : 0 < h0 -> exists n, C < INR n /\ 0 < INR n /\ 0 < 1 / INR n <= h0.
Proof.
  intros H0. assert (P : 0 < 1 / h0) by (apply Rdiv_lt_0_compat; lra). destruct (INR_above (Rabs C + 1 / h0)) as [n Hn]. pose proof (Rabs_pos C). pose proof (Rle_abs C). exists n. split; [lra|]. split; [lra|].
  split; [apply Rdiv_lt_0_compat; lra|]. apply (Rmult_le_reg_r (INR n)); [lra|]. replace (1 / INR n * INR n) with (h0 * (1 / h0)) by (field; lra). apply Rmult_le_compat_l; lra.
Qed.
Lemma am_cube_box h j : 0 <= h -> INR j * h <= 1 -> box (am_cube h j).
Proof.
  intros Hh H. assert (J : 0 <= INR j * h) by (apply Rmult_le_pos; [apply pos_INR|exact Hh]). intros [|]; unfold am_cube; [|rewrite Rabs_pos_eq; lra].
  pose proof (pow_incr (INR j * h) 1 3 ltac:(lra)) as Q. rewrite pow1 in Q. pose proof (pow_le (INR j * h) 3 J). pose proof (pow_le h 3 Hh) as h3.
  assert (Z : 0 <= INR (Nat.min j 2) * (h ^ 3 / 2) <= 1).
  { split; [apply Rmult_le_pos; [apply pos_INR|lra]|]. destruct j as [|j]; [cbn [Nat.min INR]; lra|]. assert (1 <= INR (S j)) by (rewrite S_INR; pose proof (pos_INR j); lra). assert (h <= 1) by (assert (1 * h <= INR (S j) * h) by (apply Rmult_le_compat_r; lra); lra).
    pose proof (pow_incr h 1 3 ltac:(lra)) as Q'. rewrite pow1 in Q'. assert (INR (Nat.min (S j) 2) <= INR 2) by (apply le_INR; lia). cbn [INR] in *. apply (Rle_trans _ ((1 + 1) * (h ^ 3 / 2))); [apply Rmult_le_compat_r; lra|lra]. }
  rewrite Rabs_pos_eq; lra.
Qed.

(** C139 fails for Adams-Bashforth of order 3 and 4 from a fresh start: on dy/dt = (2 s, 1) the error of every run of at least k - 1 steps is exactly (k - 1) h^2, whatever the number of steps, so the runs are of order 2 only. *)
Theorem adams_bashforth_runs_are_second_order_refuted :
  forall k, (k = 3 \/ k = 4)%nat ->
  well_posed quadF square_solution 0 1 everywhere /\
  (forall h n, (k - 1 <= n)%nat -> ml_run CAB k quadF h (ab_square k h) n /\ ab_square k h 0 = square_solution 0 /\
     square_solution (INR n * h) true - ab_square k h n true = INR (k - 1) * h ^ 2) /\
  ~ run_converges 3 (ml_run CAB k quadF) square_solution 0 1 everywhere.
Proof.
  intros k Hk. split; [exact square_well_posed|]. 
  assert (E0 : forall h, ab_square k h 0 = square_solution 0) by (intros h; unfold ab_square, square_solution; comp; cbn; ring).
  split.
  { intros h n Hn. split; [apply ab_square_run; exact Hk|]. split; [apply E0|]. unfold ab_square, square_solution. rewrite Nat.min_r by exact Hn. ring. }
  intros HC. destruct (error_size 3 _ _ _ _ (ab_square k) true HC) as (C & h0 & C0 & H0 & H).
  { intros h n _ _. split; [apply ab_square_run; exact Hk|]. split; [apply E0|]. intros; exact Logic.I. }
  set (h := Rmin h0 (Rmin (1/3) (1 / (C + 1)))). assert (P : 0 < 1 / (C + 1)) by (apply Rdiv_lt_0_compat; lra).
  assert (h1 : 0 < h) by (unfold h; repeat apply Rmin_pos; lra). assert (h2 : h <= h0) by apply Rmin_l.
  assert (h3 : h <= 1/3) by (unfold h; eapply Rle_trans; [apply Rmin_r|apply Rmin_l]). assert (h4 : h <= 1 / (C + 1)) by (unfold h; eapply Rle_trans; [apply Rmin_r|apply Rmin_r]).
  assert (KB : 2 <= INR (k - 1) <= 3) by (destruct Hk as [-> | ->]; cbn; lra).
  specialize (H h (k - 1)%nat ltac:(lra)). assert (HT : INR (k - 1) * h <= 1) by (apply (Rle_trans _ (3 * (1/3))); [apply Rmult_le_compat; lra|lra]). specialize (H HT).
  unfold ab_square, square_solution in H. rewrite Nat.min_id in H. replace ((INR (k - 1) * h) ^ 2 - INR (k - 1) * h ^ 2 - (INR (k - 1) * h) ^ 2) with (- (INR (k - 1) * h ^ 2)) in H by ring.
  assert (hh : 0 < h ^ 2) by (apply pow_lt; exact h1). rewrite Rabs_Ropp, Rabs_pos_eq in H by (apply Rmult_le_pos; lra).
  assert (C * h <= 1). { apply (Rle_trans _ ((C + 1) * (1 / (C + 1)))); [apply Rmult_le_compat; lra|right; field; lra]. }
  assert (Q : C * h ^ 3 <= 1 * h ^ 2) by (replace (C * h ^ 3) with (C * h * h ^ 2) by ring; apply Rmult_le_compat_r; lra). assert (2 * h ^ 2 <= INR (k - 1) * h ^ 2) by (apply Rmult_le_compat_r; lra). lra.
Qed.
Print Assumptions adams_bashforth_runs_are_second_order_refuted.

(** C139 fails for Adams-Moulton 3 from a fresh start: on dy/dt = (3 s^2, 1) every run of at least two steps ends with the error h^3 (order 3, not 4). *)
Theorem adams_moulton_runs_are_third_order_refuted :
  well_posed cubeN cube_solution 0 1 box /\
  (forall h n, (2 <= n)%nat -> ml_run CAM 3 cubeN h (am_cube h) n /\ am_cube h 0 = cube_solution 0 /\ am_cube h n true - cube_solution (INR n * h) true = h ^ 3) /\
  ~ run_converges 4 (ml_run CAM 3 cubeN) cube_solution 0 1 box.
Proof.
  split; [exact cube_well_posed|].
  assert (E0 : forall h, am_cube h 0 = cube_solution 0) by (intros h; unfold am_cube, cube_solution; comp; cbn; field).
  split.
  { intros h n Hn. split; [apply am_cube_run|]. split; [apply E0|]. unfold am_cube, cube_solution. rewrite Nat.min_r by exact Hn. cbn [INR]. field. }
  intros HC. destruct (error_size 4 _ _ _ _ am_cube true HC) as (C & h0 & C0 & H0 & H).
  { intros h n Hh HT. split; [apply am_cube_run|]. split; [apply E0|]. intros j Hj. apply am_cube_box; [lra|]. eapply Rle_trans; [|exact HT]. apply Rmult_le_compat_r; [lra|apply le_INR; exact Hj]. }
  set (h := Rmin h0 (Rmin (1/2) (1 / (2 * (C + 1))))). assert (P : 0 < 1 / (2 * (C + 1))) by (apply Rdiv_lt_0_compat; lra).
  assert (h1 : 0 < h) by (unfold h; repeat apply Rmin_pos; lra). assert (h2 : h <= h0) by apply Rmin_l.
  assert (h3 : h <= 1/2) by (unfold h; eapply Rle_trans; [apply Rmin_r|apply Rmin_l]). assert (h4 : h <= 1 / (2 * (C + 1))) by (unfold h; eapply Rle_trans; [apply Rmin_r|apply Rmin_r]).
  specialize (H h 2%nat ltac:(lra) ltac:(cbn; lra)). unfold am_cube, cube_solution in H. cbn [Nat.min INR] in H.
  replace (((1 + 1) * h) ^ 3 + (1 + 1) * (h ^ 3 / 2) - ((1 + 1) * h) ^ 3) with (h ^ 3) in H by field. assert (hh : 0 < h ^ 3) by (apply pow_lt; exact h1). rewrite Rabs_pos_eq in H by lra.
  assert (C * h <= 1/2). { apply (Rle_trans _ ((C + 1) * (1 / (2 * (C + 1))))); [apply Rmult_le_compat; lra|right; field; lra]. }
  assert (Q : C * h ^ 4 <= 1/2 * h ^ 3) by (replace (C * h ^ 4) with (C * h * h ^ 3) by ring; apply Rmult_le_compat_r; lra). lra.
Qed.
Print Assumptions adams_moulton_runs_are_third_order_refuted.

(** C139 fails for Leapfrog: its runs are forward Euler runs; on dy/dt = (2 s, 1) the error after n steps is exactly n h^2, so second order fails. *)
Theorem leapfrog_runs_are_first_order_refuted :
  well_posed quadF square_solution 0 1 everywhere /\
  (forall h n, ml_run CLeapfrog 0 quadF h (euler_square h) n /\ euler_square h 0 = square_solution 0 /\ square_solution (INR n * h) true - euler_square h n true = INR n * h ^ 2) /\
  ~ run_converges 2 (ml_run CLeapfrog 0 quadF) square_solution 0 1 everywhere.
Proof.
  split; [exact square_well_posed|].
  assert (E0 : forall h, euler_square h 0 = square_solution 0) by (intros h; unfold euler_square, square_solution; comp; cbn; ring).
  split. { intros h n. split; [apply leapfrog_square_run|]. split; [apply E0|]. unfold euler_square, square_solution. ring. }
  intros HC. destruct (error_size 2 _ _ _ _ euler_square true HC) as (C & h0 & C0 & H0 & H).
  { intros h n _ _. split; [apply leapfrog_square_run|]. split; [apply E0|]. intros; exact Logic.I. }
  destruct (large_n C h0 H0) as (n & N1 & N2 & N3). specialize (H (1 / INR n) n N3 ltac:(right; field; lra)).
  unfold euler_square, square_solution in H. replace ((INR n * (1 / INR n)) ^ 2 - INR n * (1 / INR n) ^ 2 - (INR n * (1 / INR n)) ^ 2) with (- (INR n * (1 / INR n) ^ 2)) in H by ring.
  assert (hh : 0 < (1 / INR n) ^ 2) by (apply pow_lt; apply Rdiv_lt_0_compat; lra). rewrite Rabs_Ropp, Rabs_pos_eq in H by (apply Rmult_le_pos; lra).
  assert (C * (1 / INR n) ^ 2 < INR n * (1 / INR n) ^ 2) by (apply Rmult_lt_compat_r; lra). lra.
Qed.
Print Assumptions leapfrog_runs_are_first_order_refuted.

(** C139 fails for Adams-Bashforth 5 and Adams-Moulton 4: on dy/dt = 1 they do not converge at all (of no order p >= 1). *)
Definition line (t : R) : vec unit := fun _ => t.
Definition minus_one (v : vec unit) : vec unit := fun _ => -1.
Lemma line_well_posed : well_posed minus_one line 0 1 everywhere.
Proof.
  split; [exists [tt]; intros []; cbn; tauto|]. split; [exists 0; split; [lra|]; intros x z rho _ _ H i; unfold rhs_of, minus_one; vunfold; replace (-1 * -1 - -1 * -1) with 0 by ring; rewrite Rabs_R0; lra|].
  split; [intros t i _; unfold line, rhs_of, minus_one; vunfold; eapply dlim_eq; [apply dlim_id'|ring]|]. split; [intros; exact Logic.I|]. intros q.
  exists (fun (k : nat) (t : R) (_ : unit) => match k with 0%nat => t | 1%nat => 1 | _ => 0 end), 1. split; [lra|]. split; [intros t; reflexivity|]. split.
  - intros k t i _ _. destruct k as [|[|k]]; [apply dlim_id'|apply dlim_0|apply dlim_0].
  - intros t _ i. destruct q as [|q]; [rewrite Rabs_R1; lra|rewrite Rabs_R0; lra].
Qed.
Definition drift (k : nat) (a h : R) (j : nat) : vec unit := fun _ => INR (Nat.min j k) * h + INR (j - k) * (a * h).
Lemma ab5_line_run h n : ml_run CAB 5 minus_one h (drift 4 (43/18) h) n.
Proof.
  apply (run_steps CAB 5 minus_one h (forward_euler_step (F_of minus_one) h) (fun (ys : nat -> vec unit) xo => xo = ys 0%nat +v v1 (43/18 * h))); cbn [nlevels]; [lia| | | |].
  - intros X it l y xo Hit _. apply (proj1 (proj2 (proj2 (startup_steps unit minus_one h X xo)))). exact Hit.
  - intros X it ys xo Hit. apply (adams_bashforth_5_refuted h X X it ys xo). exact Hit.
  - intros ys ys' xo H. rewrite (H 0%nat) by lia. tauto.
  - intros j Hj. split; intros Hk.
    + unfold forward_euler_step, rhs_of, minus_one, drift. rewrite !Nat.min_l by lia. replace (j - 4)%nat with 0%nat by lia. replace (S j - 4)%nat with 0%nat by lia. rewrite S_INR. apply functional_extensionality; intros u; vunfold; cbn [INR]; ring.
    + unfold drift, v1. rewrite Nat.sub_0_r, !Nat.min_r by lia. replace (S j - 4)%nat with (S (j - 4)) by lia. rewrite (S_INR (j - 4)). apply functional_extensionality; intros u; vunfold; field.
Qed.
Lemma am4_line_run h n : ml_run CAM 4 minus_one h (drift 3 (73/72) h) n.
Proof.
  apply (run_steps CAM 4 minus_one h (trapezium_step (F_of minus_one) h) (fun (ys : nat -> vec unit) xo => xo = ys 0%nat +v v1 (73/72 * h))); cbn [nlevels]; [lia| | | |].
  - intros X it l y xo Hit _. apply (proj2 (proj2 (proj2 (startup_steps unit minus_one h X xo)))). exact Hit.
  - intros X it ys xo Hit. apply (adams_moulton_4_refuted h X X it ys xo). exact Hit.
  - intros ys ys' xo H. rewrite (H 0%nat) by lia. tauto.
  - intros j Hj. split; intros Hk.
    + unfold trapezium_step, rhs_of, minus_one, drift. rewrite !Nat.min_l by lia. replace (j - 3)%nat with 0%nat by lia. replace (S j - 3)%nat with 0%nat by lia. rewrite S_INR. apply functional_extensionality; intros u; vunfold; cbn [INR]; field.
    + unfold drift, v1. rewrite Nat.sub_0_r, !Nat.min_r by lia. replace (S j - 3)%nat with (S (j - 3)) by lia. rewrite (S_INR (j - 3)). apply functional_extensionality; intros u; vunfold; field.
Qed.
Lemma drift_diverges c order k a p : (forall h n, ml_run c order minus_one h (drift k a h) n) -> (1 <= p)%nat -> 1 < a -> ~ run_converges p (ml_run c order minus_one) line 0 1 everywhere.
Proof.
  intros Hr Hp Ha HC. destruct (error_size p _ _ _ _ (drift k a) tt HC) as (C & h0 & C0 & H0 & H).
  { intros h n _ _. split; [apply Hr|]. split; [|intros; exact Logic.I]. unfold drift, line. apply functional_extensionality; intros u. cbn [Nat.min Nat.sub INR]. replace (0 - k)%nat with 0%nat by lia. cbn [INR]. ring. }
  pose proof (pos_INR k) as kp. assert (M0 : 0 <= C / (a - 1)) by (apply Rmult_le_pos; [exact C0|left; apply Rinv_0_lt_compat; lra]).
  destruct (large_n (INR k + 1 + C / (a - 1)) (Rmin h0 1) ltac:(apply Rmin_pos; lra)) as (n & N1 & N2 & N3). pose proof (Rmin_l h0 1). pose proof (Rmin_r h0 1).
  specialize (H (1 / INR n) n ltac:(lra) ltac:(right; field; lra)). assert (kn : (k <= n)%nat) by (apply INR_le; lra).
  unfold drift, line in H. rewrite Nat.min_r in H by exact kn. rewrite minus_INR in H by exact kn.
  replace (INR k * (1 / INR n) + (INR n - INR k) * (a * (1 / INR n)) - INR n * (1 / INR n)) with ((INR n - INR k) * (a - 1) * (1 / INR n)) in H by (field; lra).
  assert (Q : C * (1 / INR n) ^ p <= C * (1 / INR n)). { apply Rmult_le_compat_l; [exact C0|]. pose proof (pow_le_1 (1 / INR n) 1 p ltac:(lra) Hp) as Z. rewrite pow_1 in Z. exact Z. }
  assert (P : 0 <= (INR n - INR k) * (a - 1)) by (apply Rmult_le_pos; lra). rewrite Rabs_pos_eq in H by (apply Rmult_le_pos; lra).
  assert (W : C < (INR n - INR k) * (a - 1)). { replace C with (C / (a - 1) * (a - 1)) by (field; lra). apply Rmult_lt_compat_r; lra. }
  assert (C * (1 / INR n) < (INR n - INR k) * (a - 1) * (1 / INR n)) by (apply Rmult_lt_compat_r; lra). lra.
Qed.
Theorem adams_5_and_4_do_not_converge_refuted :
  forall p, (1 <= p)%nat ->
  well_posed minus_one line 0 1 everywhere /\ ~ run_converges p (ml_run CAB 5 minus_one) line 0 1 everywhere /\ ~ run_converges p (ml_run CAM 4 minus_one) line 0 1 everywhere.
Proof.
  intros p Hp. split; [exact line_well_posed|]. split.
  - apply (drift_diverges CAB 5 4 (43/18)); [apply ab5_line_run|exact Hp|lra].
  - apply (drift_diverges CAM 4 3 (73/72)); [apply am4_line_run|exact Hp|lra].
Qed.
Print Assumptions adams_5_and_4_do_not_converge_refuted.

(** The convergence theorems apply to these problems. *)
Example square_problem_converges : run_converges 2 (ml_run CAB 3 quadF) square_solution 0 1 everywhere.
Proof.
  destruct square_well_posed as (fin & (L & lip) & sol & Uy & sm). apply (multistep_runs_converge bool CAB 3 2 quadF square_solution 0 1 L everywhere); [cbn; tauto|exact fin|exact lip|exact sol|exact Uy|apply sm].
Qed.
Example cube_problem_converges : run_converges 3 (ml_run CAM 3 cubeN) cube_solution 0 1 box /\ continued_converges 4 3 (ml_continued CAM 3 cubeN) cube_solution 0 1 box.
Proof.
  destruct cube_well_posed as (fin & (L & lip) & sol & Uy & sm). split.
  - apply (multistep_runs_converge bool CAM 3 3 cubeN cube_solution 0 1 L box); [cbn; tauto|exact fin|exact lip|exact sol|exact Uy|apply sm].
  - apply (multistep_schemes_converge_from_starting_values bool CAM 3 4 cubeN cube_solution 0 1 L box); [cbn; tauto|exact fin|exact lip|exact sol|exact Uy|apply sm].
Qed.
