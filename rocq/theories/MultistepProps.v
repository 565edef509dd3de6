(** C139.  Convergence of the multi-level schemes over whole runs (definitions in MultistepSpec.v). *)
From Coq Require Import Lra Lia.
From Verif Require Import Base Vec MultilevelSpec Multilevel MultilevelFacts MultilevelProps RKProps IMEXProps ConvergenceSpec ConvergenceFacts ConvergenceMain MultistepSpec MultistepFacts MultistepMain.
Open Scope R_scope.

(** A run of n steps of size h from a fresh start (initial_timesteps = 0): x j is the field after j steps, the levels before the start hold anything. *)
Definition levels_at {I} (k : nat) (x past : nat -> vec I) (j : nat) : list (vec I) :=
  map (fun m => if Nat.leb m j then x (j - m)%nat else past (m - j)%nat) (rev (seq 0 k)).
Definition ml_run {I} (c : cls) (order : nat) (N : vec I -> vec I) (h : R) (x : nat -> vec I) (n : nat) : Prop :=
  exists (it : nat -> nat) (X past : nat -> vec I), it 0%nat = 0%nat /\
  forall j, (j < n)%nat -> ml_apply c order h N (X j) (it j) (levels_at (nlevels c order) x past j) (x (S j)) (it (S j)).
(** A run that continues from any state whose start-up is over. *)
Definition ml_continued {I} (c : cls) (order : nat) (N : vec I -> vec I) (h : R) (x : nat -> vec I) (n : nat) : Prop :=
  exists (it : nat -> nat) (X past : nat -> vec I), (nlevels c order - 1 <= it (nlevels c order - 1))%nat /\
  forall j, (nlevels c order - 1 <= j < n)%nat -> ml_apply c order h N (X j) (it j) (levels_at (nlevels c order) x past j) (x (S j)) (it (S j)).

(** Convergence with order p of runs with a constant step. *)
Definition run_converges {I} (p : nat) (run : R -> (nat -> vec I) -> nat -> Prop) (y : R -> vec I) (t0 T : R) (U : vec I -> Prop) : Prop :=
  exists C h0, 0 <= C /\ 0 < h0 /\
  forall h x n e0, 0 < h <= h0 -> t0 + INR n * h <= T -> run h x n -> (forall j, (j <= n)%nat -> U (x j)) ->
  0 <= e0 -> sup_le (x 0%nat -v y t0) e0 -> sup_le (x n -v y (t0 + INR n * h)) (C * (e0 + h ^ p)).
(** The same, from starting values of error e0 *)
Definition continued_converges {I} (p k : nat) (run : R -> (nat -> vec I) -> nat -> Prop) (y : R -> vec I) (t0 T : R) (U : vec I -> Prop) : Prop :=
  exists C h0, 0 <= C /\ 0 < h0 /\
  forall h x n e0, 0 < h <= h0 -> t0 + INR n * h <= T -> run h x n -> (forall j, (j <= n)%nat -> U (x j)) ->
  0 <= e0 -> (forall j, (j < k)%nat -> (j <= n)%nat -> sup_le (x j -v y (t0 + INR j * h)) e0) -> sup_le (x n -v y (t0 + INR n * h)) (C * (e0 + h ^ p)).

(** ** Runs, step by step *)
Lemma it_next {I} c order h (N : vec I -> vec I) X it xs xo it' : ml_apply c order h N X it xs xo it' -> it' = if (it <? nlevels c order - 1)%nat then S it else it.
Proof. intros [H _]. exact H. Qed.
Lemma it_min {I} c order h (N : vec I -> vec I) X it x past n : it 0%nat = 0%nat ->
  (forall j, (j < n)%nat -> ml_apply c order h N (X j) (it j) (levels_at (nlevels c order) x past j) (x (S j)) (it (S j))) ->
  forall j, (j <= n)%nat -> it j = Nat.min j (nlevels c order - 1).
Proof.
  intros H0 H. induction j as [|j IH]; intros Hj; [rewrite H0; reflexivity|]. rewrite (it_next _ _ _ _ _ _ _ _ _ (H j ltac:(lia))), (IH ltac:(lia)).
  destruct (Nat.ltb_spec (Nat.min j (nlevels c order - 1)) (nlevels c order - 1)); lia.
Qed.
Lemma run_iff {I} c order h (N : vec I -> vec I) x n : ml_run c order N h x n <->
  exists X past : nat -> vec I, forall j, (j < n)%nat -> ml_apply c order h N (X j) (Nat.min j (nlevels c order - 1)) (levels_at (nlevels c order) x past j) (x (S j)) (Nat.min (S j) (nlevels c order - 1)).
Proof.
  split.
  - intros (it & X & past & H0 & H). exists X, past. intros j Hj. rewrite <- (it_min c order h N X it x past n H0 H j), <- (it_min c order h N X it x past n H0 H (S j)) by lia. apply H. exact Hj.
  - intros (X & past & H). exists (fun j => Nat.min j (nlevels c order - 1)), X, past. split; [reflexivity|exact H].
Qed.
Lemma continued_iff {I} c order h (N : vec I -> vec I) x n : ml_continued c order N h x n ->
  exists X past : nat -> vec I, forall j, (nlevels c order - 1 <= j < n)%nat -> exists it, (nlevels c order - 1 <= it)%nat /\ ml_apply c order h N (X j) it (levels_at (nlevels c order) x past j) (x (S j)) it.
Proof.
  intros (it & X & past & H0 & H). exists X, past. intros j Hj.
  assert (A : forall j, (nlevels c order - 1 <= j <= n)%nat -> it j = it (nlevels c order - 1)%nat).
  { clear j Hj. induction j as [|j IH]; intros Hj; [f_equal; lia|]. destruct (Nat.eq_dec (nlevels c order - 1) (S j)) as [->|]; [reflexivity|].
    rewrite (it_next _ _ _ _ _ _ _ _ _ (H j ltac:(lia))), (IH ltac:(lia)). destruct (Nat.ltb_spec (it (nlevels c order - 1)%nat) (nlevels c order - 1)); [lia|reflexivity]. }
  exists (it j). split; [rewrite A by lia; exact H0|]. pose proof (H j ltac:(lia)) as Q. rewrite (A (S j)) in Q by lia. rewrite (A j) in * by lia. exact Q.
Qed.
Lemma levels_newest {I} k (x past : nat -> vec I) j : (1 <= k)%nat -> exists l, levels_at k x past j = (l ++ [x j])%list.
Proof.
  intros Hk. destruct k as [|k]; [lia|]. unfold levels_at. cbn [seq rev]. rewrite map_app. cbn [map Nat.leb]. rewrite Nat.sub_0_r. eexists. reflexivity.
Qed.
Section Steps.
Context {I : Type}.
Variables (c : cls) (order : nat) (N : vec I -> vec I) (h : R) (St : vec I -> vec I -> Prop) (Fo : (nat -> vec I) -> vec I -> Prop).
Notation K := (nlevels c order).
Hypothesis K1 : (1 <= K)%nat.
Hypothesis HS : forall X it l y xo, (it < K - 1)%nat -> length l = (K - 1)%nat -> ml_apply c order h N X it (l ++ [y]) xo (S it) <-> St y xo.
Hypothesis HF : forall X it ys xo, (K - 1 <= it)%nat -> ml_apply c order h N X it (map ys (rev (seq 0 K))) xo it <-> Fo ys xo.
Hypothesis HX : forall ys ys' xo, (forall m, (m < K)%nat -> ys m = ys' m) -> Fo ys xo -> Fo ys' xo.
Lemma steps_steady X it x past j : (K - 1 <= it)%nat -> (K - 1 <= j)%nat -> ml_apply c order h N X it (levels_at K x past j) (x (S j)) it <-> Fo (fun m => x (j - m)%nat) (x (S j)).
Proof. clear HS K1 St.
  intros Hit Hj. unfold levels_at. rewrite (HF X it _ (x (S j)) Hit). split; apply HX; intros m Hm; destruct (Nat.leb_spec m j); try lia; reflexivity.
Qed.
Lemma run_steps x n : ml_run c order N h x n <-> forall j, (j < n)%nat -> ((j < K - 1)%nat -> St (x j) (x (S j))) /\ ((K - 1 <= j)%nat -> Fo (fun m => x (j - m)%nat) (x (S j))).
Proof.
  rewrite run_iff. split.
  - intros (X & past & H) j Hj. specialize (H j Hj). split; intros Hk.
    + destruct (levels_newest K x past j K1) as [l El]. assert (Ll : length l = (K - 1)%nat) by (apply (f_equal (@length _)) in El; unfold levels_at in El; rewrite map_length, rev_length, seq_length, app_length in El; cbn in El; lia).
      rewrite El in H. rewrite !Nat.min_l in H by lia. apply HS in H; [exact H|lia|exact Ll].
    + rewrite !Nat.min_r in H by lia. apply steps_steady in H; [exact H|lia|exact Hk].
  - intros H. exists (fun _ => vzero), (fun _ => vzero). intros j Hj. destruct (H j Hj) as [A B]. destruct (Nat.lt_ge_cases j (K - 1)) as [Hk|Hk].
    + destruct (levels_newest K x (fun _ => vzero) j K1) as [l El]. assert (Ll : length l = (K - 1)%nat) by (apply (f_equal (@length _)) in El; unfold levels_at in El; rewrite map_length, rev_length, seq_length, app_length in El; cbn in El; lia).
      rewrite El. rewrite !Nat.min_l by lia. apply HS; [lia|exact Ll|apply A; exact Hk].
    + rewrite !Nat.min_r by lia. apply steps_steady; [lia|exact Hk|apply B; exact Hk].
Qed.
Lemma continued_steps x n : ml_continued c order N h x n -> forall j, (K - 1 <= j < n)%nat -> Fo (fun m => x (j - m)%nat) (x (S j)).
Proof. clear HS K1 St.
  intros H j Hj. destruct (continued_iff _ _ _ _ _ _ H) as (X & past & Q). destruct (Q j Hj) as (it & H1 & H2). apply steps_steady in H2; [exact H2|exact H1|lia].
Qed.
End Steps.

Notation ab k := (fun m => nth m (ab_coefficients k) 0).
Notation am k := (fun m => nth m (snd (am_coefficients k)) 0).
Lemma adams_levels_1 {I} k b bl (F : vec I -> vec I) h ys ys' xo : (0 < k)%nat -> (forall m, (m < k)%nat -> ys m = ys' m) -> adams_step k b bl F h ys xo -> adams_step k b bl F h ys' xo.
Proof. intros Hk H. exact (proj1 (adams_step_levels k b bl F h ys ys' xo Hk H)). Qed.
Lemma ab_run {I} k (N : vec I -> vec I) h x n : (1 <= k <= 4)%nat -> ml_run CAB k N h x n <->
  forall j, (j < n)%nat -> ((j < k - 1)%nat -> forward_euler_step (F_of N) h (x j) (x (S j))) /\ ((k - 1 <= j)%nat -> adams_step k (ab k) 0 (F_of N) h (fun m => x (j - m)%nat) (x (S j))).
Proof.
  intros Hk. apply (run_steps CAB k N h (forward_euler_step (F_of N) h) (fun (ys : nat -> vec I) xo => adams_step k (ab k) 0 (F_of N) h ys xo)); cbn [nlevels]; [lia| | |].
  - intros X it l y xo Hit _. apply (proj1 (proj2 (proj2 (startup_steps I N h X xo)))). exact Hit.
  - intros X it ys xo Hit. apply (proj1 (proj2 (multistep_is_textbook I N h X xo))); [lia|exact Hit].
  - intros ys ys' xo. apply adams_levels_1. lia.
Qed.
Lemma am_run {I} k (N : vec I -> vec I) h x n : (1 <= k <= 3)%nat -> ml_run CAM k N h x n <->
  forall j, (j < n)%nat -> ((j < k - 1)%nat -> trapezium_step (F_of N) h (x j) (x (S j))) /\ ((k - 1 <= j)%nat -> adams_step k (am k) (fst (am_coefficients k)) (F_of N) h (fun m => x (j - m)%nat) (x (S j))).
Proof.
  intros Hk. apply (run_steps CAM k N h (trapezium_step (F_of N) h) (fun (ys : nat -> vec I) xo => adams_step k (am k) (fst (am_coefficients k)) (F_of N) h ys xo)); cbn [nlevels]; [lia| | |].
  - intros X it l y xo Hit _. apply (proj2 (proj2 (proj2 (startup_steps I N h X xo)))). exact Hit.
  - intros X it ys xo Hit. apply (proj2 (proj2 (multistep_is_textbook I N h X xo))); [lia|exact Hit].
  - intros ys ys' xo. apply adams_levels_1. lia.
Qed.
Lemma two_levels {A} (l : list A) : length l = 1%nat -> exists a, l = [a].
Proof. destruct l as [|a [|b l]]; cbn; intros H; [lia|exists a; reflexivity|lia]. Qed.
Lemma bdf2_run {I} (N : vec I -> vec I) h x n : ml_run CBDF2 0 N h x n <->
  forall j, (j < n)%nat -> ((j < 1)%nat -> backward_euler_step (F_of N) h (x j) (x (S j))) /\ ((1 <= j)%nat -> bdf2_step (F_of N) h (x (j - 1)%nat) (x j) (x (S j))).
Proof.
  rewrite (run_steps CBDF2 0 N h (backward_euler_step (F_of N) h) (fun (ys : nat -> vec I) xo => bdf2_step (F_of N) h (ys 1%nat) (ys 0%nat) xo)); cbn [nlevels]; [|lia| | |].
  - split; intros H j Hj; specialize (H j Hj); rewrite Nat.sub_0_r in *; exact H.
  - intros X it l y xo Hit Hl. destruct (two_levels l Hl) as [a ->]. assert (it = 0)%nat by lia. subst it. apply (proj1 (startup_steps I N h X xo)).
  - intros X it ys xo Hit. apply (proj1 (multistep_is_textbook I N h X xo)). lia.
  - intros ys ys' xo H. rewrite (H 0%nat), (H 1%nat) by lia. tauto.
Qed.
Lemma leapfrog_run {I} (N : vec I -> vec I) h x n : ml_run CLeapfrog 0 N h x n <-> forall j, (j < n)%nat -> forward_euler_step (F_of N) h (x j) (x (S j)).
Proof.
  rewrite (run_steps CLeapfrog 0 N h (forward_euler_step (F_of N) h) (fun (ys : nat -> vec I) xo => forward_euler_step (F_of N) h (ys 0%nat) xo)); cbn [nlevels]; [|lia| | |].
  - split; intros H j Hj; specialize (H j Hj); rewrite Nat.sub_0_r in *; [destruct H as [A B]; destruct (Nat.lt_ge_cases j 1); auto|split; intros _; exact H].
  - intros X it l y xo Hit Hl. destruct (two_levels l Hl) as [a ->]. assert (it = 0)%nat by lia. subst it. apply (proj1 (proj2 (startup_steps I N h X xo))).
  - intros X it ys xo Hit. apply leapfrog_is_forward_euler_refuted. lia.
  - intros ys ys' xo H. rewrite (H 0%nat) by lia. tauto.
Qed.

(** ** Order conditions of the coefficients *)
Ltac oc := split; [cbn; lra|]; intros i Hi; do 5 (destruct i as [|i]; [first [lia|cbn; lra]|]); lia.
Lemma ab_order k : (1 <= k <= 4)%nat -> multistep_order k k (adams_c k) (adams_d k (ab k) 0).
Proof. intros Hk. assert (C : k = 1%nat \/ k = 2%nat \/ k = 3%nat \/ k = 4%nat) by lia. destruct C as [->|[->|[->| ->]]]; oc. Qed.
Lemma am_order k : (1 <= k <= 3)%nat -> multistep_order k (k + 1) (adams_c k) (adams_d k (am k) (fst (am_coefficients k))).
Proof. intros Hk. assert (C : k = 1%nat \/ k = 2%nat \/ k = 3%nat) by lia. destruct C as [->|[->| ->]]; cbn [Nat.add]; oc. Qed.
Lemma bdf2_order : multistep_order 2 2 bdf2_c bdf2_d.
Proof. oc. Qed.
Lemma be_order : multistep_order 1 1 (adams_c 1) (adams_d 1 (fun _ => 0) 1).
Proof. oc. Qed.

(** ** Bounded derivatives of lower order *)
Lemma sup_bound_exists {I} (fin : finite_index I) (v : vec I) : exists s, 0 <= s /\ sup_le v s.
Proof. destruct (size_of fin v) as (s & A & B & _). exists s. split; assumption. Qed.
Lemma smooth_lower {I} (fin : finite_index I) q (y : R -> vec I) t0 T : smooth_in_time (S q) y t0 T -> smooth_in_time q y t0 T.
Proof.
  intros (Y & M & M0 & Y0 & D & B). destruct (sup_bound_exists fin (Y (S q) t0)) as (s & S0 & S1).
  destruct (Rle_dec t0 T) as [HT|HT].
  - exists Y, (s + M * (T - t0)). assert (0 <= M * (T - t0)) by (apply Rmult_le_pos; lra). split; [lra|]. split; [exact Y0|]. split; [intros k t i Hk; apply D; lia|].
    intros t Ht i. specialize (S1 i). destruct (Req_dec t t0) as [->|Hne]; [lra|].
    destruct (MVT_cor2 (fun u => Y (S q) u i) (fun u => Y (S (S q)) u i) t0 t ltac:(lra)) as (c & E & Hc); [intros u Hu; apply D; [lia|lra]|].
    assert (Q : Rabs (Y (S q) t i - Y (S q) t0 i) <= M * (T - t0)).
    { rewrite E, Rabs_mult, (Rabs_pos_eq (t - t0)) by lra. apply Rmult_le_compat; [apply Rabs_pos|lra|apply B; lra|lra]. }
    replace (Y (S q) t i) with (Y (S q) t0 i + (Y (S q) t i - Y (S q) t0 i)) by ring. eapply Rle_trans; [apply Rabs_triang|]. lra.
  - exists Y, 0. split; [lra|]. split; [exact Y0|]. split; intros; lra.
Qed.
Lemma smooth_le {I} (fin : finite_index I) p q (y : R -> vec I) t0 T : (q <= p)%nat -> smooth_in_time p y t0 T -> smooth_in_time q y t0 T.
Proof. intros H. induction H as [|p H IH]; [tauto|]. intros Q. apply IH. apply smooth_lower; assumption. Qed.

(** ** From starting values, and whole runs *)
Lemma pow_le_1 h r p : 0 < h <= 1 -> (r <= p)%nat -> h ^ p <= h ^ r.
Proof.
  intros Hh H. replace p with (r + (p - r))%nat by lia. rewrite pow_add. rewrite <- (Rmult_1_r (h ^ r)) at 2. apply Rmult_le_compat_l; [apply pow_le; lra|]. rewrite <- (pow1 (p - r)). apply pow_incr. lra.
Qed.
Lemma exp_le x y : x <= y -> exp x <= exp y.
Proof. intros [H| ->]; [left; apply exp_increasing; exact H|lra]. Qed.
Section Whole.
Context {I : Type}.
Variables (F : vec I -> vec I) (y : R -> vec I) (t0 T L : R) (U : vec I -> Prop).
Hypothesis fin : finite_index I.
Hypothesis lip : lipschitz L F U.
Hypothesis sol : solution_of F y t0 T.
Hypothesis Uy : forall t, t0 <= t <= T -> U (y t).
Notation err x h j := (x j -v y (t0 + INR j * h)).
Definition adams_run (k : nat) (b : nat -> R) (bl h : R) (x : nat -> vec I) (n : nat) : Prop :=
  forall j, (k - 1 <= j < n)%nat -> adams_step k b bl F h (fun m => x (j - m)%nat) (x (S j)).
Lemma adams_continued q k b bl : (1 <= k)%nat -> (1 <= q)%nat -> smooth_in_time q y t0 T -> multistep_order k q (adams_c k) (adams_d k b bl) -> continued_converges q k (adams_run k b bl) y t0 T U.
Proof.
  intros Hk Hq sm oc. destruct (adams_bound q F y t0 T L U fin Hq lip sol Uy sm k b bl Hk oc) as (D & K & h0 & D0 & K0 & H0 & H).
  set (G := exp (D * Rabs (T - t0))). assert (G0 : 0 <= G) by (left; apply exp_pos). pose proof (Rabs_pos (T - t0)) as RP. pose proof (Rle_abs (T - t0)) as RA.
  exists (G * (1 + Rabs (T - t0) * K)), h0. split; [apply Rmult_le_pos; [exact G0|]; assert (0 <= Rabs (T - t0) * K) by (apply Rmult_le_pos; assumption); lra|]. split; [exact H0|].
  intros h x n e0 Hh HT Hrun HU E0 Hst. eapply sup_mono.
  - apply (H h x n e0 Hh HT E0 HU Hst). intros m Hm. assert (Q := Hrun (m + k - 1)%nat ltac:(lia)). replace (S (m + k - 1)) with (m + k)%nat in Q by lia. eapply adams_levels_1; [lia| |exact Q]. intros i Hi. cbv beta. f_equal. lia.
  - assert (P : 0 <= h ^ q) by (apply pow_le; lra). assert (NH : 0 <= INR n * h) by (apply Rmult_le_pos; [apply pos_INR|lra]). rewrite (Rmult_assoc G). apply Rmult_le_compat; [left; apply exp_pos| |apply exp_le; apply Rmult_le_compat_l; lra|].
    + assert (0 <= INR n * h * K * h ^ q) by (apply Rmult_le_pos; [apply Rmult_le_pos; assumption|exact P]). lra.
    + assert (A : INR n * h * K * h ^ q <= Rabs (T - t0) * K * h ^ q) by (apply Rmult_le_compat_r; [exact P|]; apply Rmult_le_compat_r; [exact K0|lra]).
      assert (0 <= Rabs (T - t0) * K * e0) by (apply Rmult_le_pos; [apply Rmult_le_pos; assumption|exact E0]). replace ((1 + Rabs (T - t0) * K) * (e0 + h ^ q)) with (e0 + h ^ q + Rabs (T - t0) * K * e0 + Rabs (T - t0) * K * h ^ q) by ring. lra.
Qed.
Lemma bdf2_continued : smooth_in_time 2 y t0 T -> continued_converges 2 2 (fun h x n => forall j, (1 <= j < n)%nat -> bdf2_step F h (x (j - 1)%nat) (x j) (x (S j))) y t0 T U.
Proof.
  intros sm. destruct (bdf2_bound 2 F y t0 T L U fin ltac:(lia) lip sol Uy sm bdf2_order) as (D & K & h0 & D0 & K0 & H0 & H).
  set (G := exp (D * Rabs (T - t0))). assert (G0 : 0 <= G) by (left; apply exp_pos). pose proof (Rabs_pos (T - t0)) as RP. pose proof (Rle_abs (T - t0)) as RA.
  exists (3 * (G * (2 + Rabs (T - t0) * K))), h0. split; [apply Rmult_le_pos; [lra|]; apply Rmult_le_pos; [exact G0|]; assert (0 <= Rabs (T - t0) * K) by (apply Rmult_le_pos; assumption); lra|]. split; [exact H0|].
  intros h x n e0 Hh HT Hrun HU E0 Hst. eapply sup_mono.
  - apply (H h x n e0 Hh HT E0 HU Hst). intros m Hm. assert (Q := Hrun (S m) ltac:(lia)). replace (S m - 1)%nat with m in Q by lia. exact Q.
  - assert (P : 0 <= h ^ 2) by (apply pow_le; lra). assert (NH : 0 <= INR n * h) by (apply Rmult_le_pos; [apply pos_INR|lra]). rewrite (Rmult_assoc 3). apply Rmult_le_compat_l; [lra|]. rewrite (Rmult_assoc G). apply Rmult_le_compat; [left; apply exp_pos| |apply exp_le; apply Rmult_le_compat_l; lra|].
    + assert (0 <= INR n * h * K * h ^ 2) by (apply Rmult_le_pos; [apply Rmult_le_pos; assumption|exact P]). lra.
    + assert (A : INR n * h * K * h ^ 2 <= Rabs (T - t0) * K * h ^ 2) by (apply Rmult_le_compat_r; [exact P|]; apply Rmult_le_compat_r; [exact K0|lra]).
      assert (0 <= Rabs (T - t0) * K * e0) by (apply Rmult_le_pos; [apply Rmult_le_pos; assumption|exact E0]). replace ((2 + Rabs (T - t0) * K) * (e0 + h ^ 2)) with (2 * e0 + 2 * h ^ 2 + Rabs (T - t0) * K * e0 + Rabs (T - t0) * K * h ^ 2) by ring. lra.
Qed.
(** a few one-step start-up steps of order q1 lose nothing up to order q1 + 1 *)
Lemma startup_error q1 b1 bl1 k : (1 <= q1)%nat -> smooth_in_time q1 y t0 T -> multistep_order 1 q1 (adams_c 1) (adams_d 1 (fun _ => b1) bl1) ->
  exists C h0, 1 <= C /\ 0 < h0 <= 1 /\ forall h (x : nat -> vec I) n e0, 0 < h <= h0 -> t0 + INR n * h <= T -> (forall j, (j <= n)%nat -> U (x j)) -> 0 <= e0 -> sup_le (x 0%nat -v y t0) e0 ->
  (forall j, (j < n)%nat -> (j < k - 1)%nat -> adams_step 1 (fun _ => b1) bl1 F h (fun _ => x j) (x (S j))) -> forall j, (j < k)%nat -> (j <= n)%nat -> sup_le (err x h j) (C * (e0 + h ^ S q1)).
Proof.
  intros Hq sm oc. destruct (adams_bound q1 F y t0 T L U fin Hq lip sol Uy sm 1 (fun _ => b1) bl1 ltac:(lia) oc) as (D & K & h0 & D0 & K0 & H0 & H).
  set (G := exp (D * INR k)). assert (G1 : 1 <= G) by (unfold G; pose proof (exp_ge1 (D * INR k)) as Q; pose proof (pos_INR k); assert (0 <= D * INR k) by (apply Rmult_le_pos; lra); specialize (Q H2); lra).
  pose proof (pos_INR k) as kp. assert (KK : 0 <= INR k * K) by (apply Rmult_le_pos; assumption).
  exists (G * (1 + INR k * K)), (Rmin h0 1). split; [rewrite <- (Rmult_1_r 1) at 1; apply Rmult_le_compat; lra|]. split; [split; [apply Rmin_pos; lra|apply Rmin_r]|].
  intros h x n e0 Hh HT HU E0 Hx Hrun j Hj Hjn. pose proof (Rmin_l h0 1). pose proof (Rmin_r h0 1). pose proof (pos_INR j) as jp. assert (jk : INR j <= INR k) by (apply le_INR; lia).
  assert (P : 0 <= h ^ q1) by (apply pow_le; lra). assert (P' : 0 <= h ^ S q1) by (apply pow_le; lra).
  eapply sup_mono.
  - apply (H h x j e0); [lra| |exact E0|intros i Hi; apply HU; lia| |].
    + assert (INR j * h <= INR n * h) by (apply Rmult_le_compat_r; [lra|apply le_INR; lia]). lra.
    + intros i Hi _. assert (i = 0)%nat by lia. subst i. cbn [INR]. rewrite Rmult_0_l, Rplus_0_r. exact Hx.
    + intros m Hm. replace (m + 1)%nat with (S m) by lia. eapply adams_levels_1; [lia| |apply Hrun; lia]. intros i Hi. cbv beta. f_equal. lia.
  - assert (jh : 0 <= INR j * h <= INR k). { split; [apply Rmult_le_pos; lra|]. rewrite <- (Rmult_1_r (INR k)). apply Rmult_le_compat; lra. }
    rewrite (Rmult_assoc G). apply Rmult_le_compat; [left; apply exp_pos| |unfold G; apply exp_le; apply Rmult_le_compat_l; lra|].
    + assert (0 <= INR j * h * K * h ^ q1) by (apply Rmult_le_pos; [apply Rmult_le_pos; lra|exact P]). lra.
    + assert (A : INR j * h * K * h ^ q1 <= INR k * K * h ^ S q1). { replace (INR j * h * K * h ^ q1) with (INR j * K * h ^ S q1) by (cbn [pow]; ring). apply Rmult_le_compat_r; [exact P'|]. apply Rmult_le_compat_r; assumption. }
      assert (0 <= INR k * K * e0) by (apply Rmult_le_pos; assumption). replace ((1 + INR k * K) * (e0 + h ^ S q1)) with (e0 + h ^ S q1 + INR k * K * e0 + INR k * K * h ^ S q1) by ring. lra.
Qed.
Lemma whole_run q q1 r k b1 bl1 (run : R -> (nat -> vec I) -> nat -> Prop) : (1 <= q1)%nat -> smooth_in_time q1 y t0 T -> multistep_order 1 q1 (adams_c 1) (adams_d 1 (fun _ => b1) bl1) -> (r <= q)%nat -> (r <= S q1)%nat ->
  continued_converges q k run y t0 T U ->
  run_converges r (fun h x n => (forall j, (j < n)%nat -> (j < k - 1)%nat -> adams_step 1 (fun _ => b1) bl1 F h (fun _ => x j) (x (S j))) /\ run h x n) y t0 T U.
Proof.
  intros Hq sm oc Hr Hr1 (C & h0 & C0 & H0 & H). destruct (startup_error q1 b1 bl1 k Hq sm oc) as (C1 & h1 & C10 & H1 & H').
  exists (C * (C1 + 1) + C1), (Rmin h0 h1). split; [assert (0 <= C * (C1 + 1)) by (apply Rmult_le_pos; lra); lra|]. split; [apply Rmin_pos; lra|].
  intros h x n e0 Hh HT [Hs Hrun] HU E0 Hx. pose proof (Rmin_l h0 h1). pose proof (Rmin_r h0 h1).
  assert (P : 0 <= h ^ S q1) by (apply pow_le; lra). assert (Pr : h ^ S q1 <= h ^ r) by (apply pow_le_1; [lra|exact Hr1]). assert (Pq : h ^ q <= h ^ r) by (apply pow_le_1; [lra|exact Hr]). assert (Pq0 : 0 <= h ^ q) by (apply pow_le; lra). assert (Pr0 : 0 <= h ^ r) by lra.
  eapply sup_mono; [apply (H h x n (C1 * (e0 + h ^ S q1))); [lra|exact HT|exact Hrun|exact HU|apply Rmult_le_pos; lra|intros j Hj Hjn; apply (H' h x n e0); try assumption; lra]|].
  assert (A : C1 * (e0 + h ^ S q1) <= C1 * (e0 + h ^ r)) by (apply Rmult_le_compat_l; lra).
  assert (B : C * (C1 * (e0 + h ^ S q1) + h ^ q) <= C * (C1 * (e0 + h ^ r) + h ^ r)) by (apply Rmult_le_compat_l; lra).
  assert (0 <= C * e0) by (apply Rmult_le_pos; lra). assert (0 <= C1 * (e0 + h ^ r)) by (apply Rmult_le_pos; lra).
  replace ((C * (C1 + 1) + C1) * (e0 + h ^ r)) with (C * (C1 * (e0 + h ^ r) + h ^ r) + C * e0 + C1 * (e0 + h ^ r)) by ring. lra.
Qed.
End Whole.

(** ** The schemes *)
Lemma run_sub {I} p (run run' : R -> (nat -> vec I) -> nat -> Prop) y t0 T U : (forall h x n, run h x n -> run' h x n) -> run_converges p run' y t0 T U -> run_converges p run y t0 T U.
Proof. intros H (C & h0 & A & B & Q). exists C, h0. split; [exact A|]. split; [exact B|]. intros h x n e0 Hh HT Hr. apply Q; [exact Hh|exact HT|apply H; exact Hr]. Qed.
Lemma continued_sub {I} p k (run run' : R -> (nat -> vec I) -> nat -> Prop) y t0 T U : (forall h x n, run h x n -> run' h x n) -> continued_converges p k run' y t0 T U -> continued_converges p k run y t0 T U.
Proof. intros H (C & h0 & A & B & Q). exists C, h0. split; [exact A|]. split; [exact B|]. intros h x n e0 Hh HT Hr. apply Q; [exact Hh|exact HT|apply H; exact Hr]. Qed.
Lemma order_le k p q c d : (q <= p)%nat -> multistep_order k p c d -> multistep_order k q c d.
Proof. intros H [A B]. split; [exact A|]. intros i Hi. apply B. lia. Qed.
Lemma fe_adams {I} (F : vec I -> vec I) h a b : forward_euler_step F h a b -> adams_step 1 (fun _ => 1) 0 F h (fun _ => a) b.
Proof. unfold forward_euler_step, adams_step. cbn [vsum]. intros E. rewrite E at 1. generalize (F a) (F b). intros. vring. Qed.
Lemma be_adams {I} (F : vec I -> vec I) h a b : backward_euler_step F h a b -> adams_step 1 (fun _ => 0) 1 F h (fun _ => a) b.
Proof. unfold backward_euler_step, adams_step. cbn [vsum]. intros E. etransitivity; [exact E|]. generalize (F a) (F b). intros. vring. Qed.
Lemma trap_adams {I} (F : vec I -> vec I) h a b : trapezium_step F h a b -> adams_step 1 (fun _ => 1/2) (1/2) F h (fun _ => a) b.
Proof. unfold trapezium_step, adams_step. cbn [vsum]. intros E. etransitivity; [exact E|]. generalize (F a) (F b). intros. vfield. Qed.
Lemma fe_order : multistep_order 1 1 (adams_c 1) (adams_d 1 (fun _ => 1) 0).
Proof. oc. Qed.
Lemma trap_order : multistep_order 1 2 (adams_c 1) (adams_d 1 (fun _ => 1/2) (1/2)).
Proof. oc. Qed.

(** classes, constructor order, and order of convergence from given starting values *)
Definition multistep_schemes : list (cls * nat * nat) :=
  [(CBDF2, 0, 2); (CAB, 1, 1); (CAB, 2, 2); (CAB, 3, 3); (CAB, 4, 4); (CAM, 1, 2); (CAM, 2, 3); (CAM, 3, 4)]%nat.
(** ... and of whole runs from a fresh start *)
Definition multistep_runs : list (cls * nat * nat) :=
  [(CBDF2, 0, 2); (CLeapfrog, 0, 1); (CAB, 1, 1); (CAB, 2, 2); (CAB, 3, 2); (CAB, 4, 2); (CAM, 1, 2); (CAM, 2, 3); (CAM, 3, 3)]%nat.

(** C139.  After start-up, BDF2, Adams-Bashforth (order 1-4) and Adams-Moulton (1-3) are convergent of their order: for every Lipschitz right-hand side and every solution with p + 1 bounded derivatives, every number n of steps of every size h <= h0 and starting values of error e0, the error is at most C (e0 + h^p). *)
Theorem multistep_schemes_converge_from_starting_values :
  forall (I : Type) (c : cls) (k p : nat) (N : vec I -> vec I) (y : R -> vec I) (t0 T L : R) (U : vec I -> Prop),
  In (c, k, p) multistep_schemes -> finite_index I -> lipschitz L (F_of N) U -> solution_of (F_of N) y t0 T ->
  (forall t, t0 <= t <= T -> U (y t)) -> smooth_in_time p y t0 T ->
  continued_converges p (nlevels c k) (ml_continued c k N) y t0 T U.
Proof.
  intros I c k p N y t0 T L U Hin fin lip sol Uy sm.
  assert (C : ((c = CBDF2 /\ k = 0 /\ p = 2) \/ (c = CAB /\ 1 <= k <= 4 /\ p = k) \/ (c = CAM /\ 1 <= k <= 3 /\ p = k + 1))%nat).
  { cbn [multistep_schemes In] in Hin. repeat (destruct Hin as [Hin|Hin]; [injection Hin as <- <- <-; first [left; repeat split; lia|right; left; repeat split; lia|right; right; repeat split; lia]|]). destruct Hin. }
  destruct C as [(-> & -> & ->)|[(-> & Hk & ->)|(-> & Hk & ->)]]; cbn [nlevels].
  - eapply continued_sub; [|apply (bdf2_continued (F_of N) y t0 T L U fin lip sol Uy sm)].
    intros h x n Hr j Hj. pose proof (continued_steps CBDF2 0 N h (fun (ys : nat -> vec I) xo => bdf2_step (F_of N) h (ys 1%nat) (ys 0%nat) xo)) as Q. cbn [nlevels] in Q.
    assert (Z : bdf2_step (F_of N) h (x (j - 1)%nat) (x (j - 0)%nat) (x (S j))) by (apply (Q ltac:(intros X it ys xo Hit; apply (proj1 (multistep_is_textbook I N h X xo)); lia) ltac:(intros ys ys' xo H; rewrite (H 0%nat), (H 1%nat) by lia; tauto) x n Hr j); lia).
    rewrite Nat.sub_0_r in Z. exact Z.
  - eapply continued_sub; [|apply (adams_continued (F_of N) y t0 T L U fin lip sol Uy k k (ab k) 0 ltac:(lia) ltac:(lia) sm (ab_order k Hk))].
    intros h x n Hr j Hj. apply (continued_steps CAB k N h (fun (ys : nat -> vec I) xo => adams_step k (ab k) 0 (F_of N) h ys xo)) with (n := n); cbn [nlevels]; [| |exact Hr|exact Hj].
    + intros X it ys xo Hit. apply (proj1 (proj2 (multistep_is_textbook I N h X xo))); [lia|exact Hit].
    + intros ys ys' xo. apply adams_levels_1. lia.
  - eapply continued_sub; [|apply (adams_continued (F_of N) y t0 T L U fin lip sol Uy (k + 1) k (am k) (fst (am_coefficients k)) ltac:(lia) ltac:(lia) sm (am_order k Hk))].
    intros h x n Hr j Hj. apply (continued_steps CAM k N h (fun (ys : nat -> vec I) xo => adams_step k (am k) (fst (am_coefficients k)) (F_of N) h ys xo)) with (n := n); cbn [nlevels]; [| |exact Hr|exact Hj].
    + intros X it ys xo Hit. apply (proj2 (proj2 (multistep_is_textbook I N h X xo))); [lia|exact Hit].
    + intros ys ys' xo. apply adams_levels_1. lia.
Qed.
Print Assumptions multistep_schemes_converge_from_starting_values.

(** C139.  Whole runs, including the start-up steps the schemes take themselves: BDF2 and Adams-Bashforth 2 reach order 2, Adams-Moulton 1 and 2 orders 2 and 3; the higher orders are limited by the start-up to 2 (Adams-Bashforth) and 3 (Adams-Moulton), and Leapfrog to 1. *)
Theorem multistep_runs_converge :
  forall (I : Type) (c : cls) (k p : nat) (N : vec I -> vec I) (y : R -> vec I) (t0 T L : R) (U : vec I -> Prop),
  In (c, k, p) multistep_runs -> finite_index I -> lipschitz L (F_of N) U -> solution_of (F_of N) y t0 T ->
  (forall t, t0 <= t <= T -> U (y t)) -> smooth_in_time p y t0 T ->
  run_converges p (ml_run c k N) y t0 T U.
Proof.
  intros I c k p N y t0 T L U Hin fin lip sol Uy sm.
  assert (C : ((c = CBDF2 /\ k = 0 /\ p = 2) \/ (c = CLeapfrog /\ k = 0 /\ p = 1) \/ (c = CAB /\ 1 <= k <= 4 /\ 1 <= p <= k /\ p <= 2) \/ (c = CAM /\ 1 <= k <= 3 /\ 2 <= p <= k + 1 /\ p <= 3))%nat).
  { cbn [multistep_runs In] in Hin. repeat (destruct Hin as [Hin|Hin]; [injection Hin as <- <- <-; first [left; repeat split; lia|right; left; repeat split; lia|right; right; left; repeat split; lia|right; right; right; repeat split; lia]|]). destruct Hin. }
  pose proof (whole_run (F_of N) y t0 T L U fin lip sol Uy) as W.
  destruct C as [(-> & -> & ->)|[(-> & -> & ->)|[(-> & Hk & Hp & Hp2)|(-> & Hk & Hp & Hp3)]]].
  - eapply run_sub; [|apply (W 2 1 2 2 0%R 1%R _ ltac:(lia) (smooth_le fin 2 1 y t0 T ltac:(lia) sm) be_order ltac:(lia) ltac:(lia) (bdf2_continued (F_of N) y t0 T L U fin lip sol Uy sm))%nat].
    intros h x n Hr0. pose proof (proj1 (bdf2_run N h x n) Hr0) as Hr. split; [intros j Hj Hk; apply be_adams; apply Hr; lia|]. intros j Hj. apply Hr; lia.
  - eapply run_sub; [|apply (W 1 1 1 1 1%R 0%R _ ltac:(lia) sm fe_order ltac:(lia) ltac:(lia) (adams_continued (F_of N) y t0 T L U fin lip sol Uy 1 1 (fun _ => 1%R) 0%R ltac:(lia) ltac:(lia) sm fe_order))%nat].
    intros h x n Hr. pose proof (proj1 (leapfrog_run N h x n) Hr) as H. split; [intros j Hj Hk; lia|]. intros j Hj. eapply adams_levels_1; [lia| |apply fe_adams; apply H; lia]. intros m Hm. cbv beta. f_equal. lia.
  - eapply run_sub; [|apply (W p 1 p k 1%R 0%R _ ltac:(lia) (smooth_le fin p 1 y t0 T ltac:(lia) sm) fe_order ltac:(lia) ltac:(lia) (adams_continued (F_of N) y t0 T L U fin lip sol Uy p k (ab k) 0%R ltac:(lia) ltac:(lia) sm (order_le _ _ _ _ _ (proj2 Hp) (ab_order k Hk))))%nat].
    intros h x n Hr. pose proof (proj1 (ab_run k N h x n Hk) Hr) as H. split; [intros j Hj Hj'; apply fe_adams; apply H; lia|]. intros j Hj. apply H; lia.
  - eapply run_sub; [|apply (W p 2 p k (1/2)%R (1/2)%R _ ltac:(lia) (smooth_le fin p 2 y t0 T ltac:(lia) sm) trap_order ltac:(lia) ltac:(lia) (adams_continued (F_of N) y t0 T L U fin lip sol Uy p k (am k) (fst (am_coefficients k)) ltac:(lia) ltac:(lia) sm (order_le _ _ _ _ _ (proj2 Hp) (am_order k Hk))))%nat].
    intros h x n Hr. pose proof (proj1 (am_run k N h x n Hk) Hr) as H. split; [intros j Hj Hj'; apply trap_adams; apply H; lia|]. intros j Hj. apply H; lia.
Qed.
Print Assumptions multistep_runs_converge.
