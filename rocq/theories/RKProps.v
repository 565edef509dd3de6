(** Properties C17 - C20 (explicit schemes). *)
From Verif Require Import Base Vec RKSpec RK RKFacts.
From Coq Require Import Lra Factorial.
Open Scope R_scope.

Definition no_limiter {I} : vec I -> vec I := fun v => v.

(** The right-hand side of the problem: all terms plus the physics tendency. *)
Definition total {I} (F P : vec I -> vec I) : vec I -> vec I := fun v => F v +v P v.

(** C17.  Increment formulation: for every coefficient array, number of stages,
    right-hand side, physics, step, stage storage left over from earlier steps and
    state, one cycle is the textbook Runge-Kutta step - and the only one. *)
Theorem increment_is_textbook :
  forall (I : Type) A s (F P : vec I -> vec I) dt k x y1, (0 < s)%nat ->
  (snd (increment_cycle A s no_limiter dt F P k x) = y1 <-> erk_step A s (total F P) dt x y1).
Proof.
  intros I A s F P dt k x y1 Hs. rewrite erk_step_iff.
  assert (E : snd (increment_cycle A s no_limiter dt F P k x) = erk_result A s (total F P) dt x).
  { apply erk_step_iff. rewrite <- limited_id. exact (increment_cycle_spec A s no_limiter dt F P k x Hs). }
  rewrite E. split; congruence.
Qed.
Print Assumptions increment_is_textbook.

(** C17.  Predictor formulation. *)
Theorem predictor_is_textbook :
  forall (I : Type) A s (F P : vec I -> vec I) dt fi x y1, (0 < s)%nat ->
  (snd (predictor_cycle A s no_limiter dt F P fi x) = y1 <-> erk_step A s (total F P) dt x y1).
Proof.
  intros I A s F P dt k x y1 Hs. rewrite erk_step_iff.
  assert (E : snd (predictor_cycle A s no_limiter dt F P k x) = erk_result A s (total F P) dt x).
  { apply erk_step_iff. rewrite <- limited_id.
    exact (predictor_cycle_spec A s no_limiter dt (fun v => eq_refl) F P k x Hs). }
  rewrite E. split; congruence.
Qed.
Print Assumptions predictor_is_textbook.

(** C17.  Linear formulation, one subcycle, right-hand side linear in the state. *)
Theorem linear_is_textbook :
  forall (I : Type) A s (F P : vec I -> vec I) dt store x y1, (0 < s)%nat -> linear_op (total F P) ->
  (apply_linear A s no_limiter dt F F P 1 store x = y1 <-> erk_step A s (total F P) dt x y1).
Proof.
  intros I A s F P dt store x y1 Hs HF. rewrite erk_step_iff.
  unfold no_limiter. rewrite (linear_apply_surplus A s dt F P 1 store x HF Hs) by lia. cbn [niter Nat.sub].
  change (fun v : vec I => F v +v P v) with (total F P).
  assert (E : erk_result A s (total F P) dt x +v (x -v x) = erk_result A s (total F P) dt x) by vring.
  rewrite E. split; congruence.
Qed.
Print Assumptions linear_is_textbook.

(** C17 with a limiter (idempotent, as limiters are) and no physics: increment and
    predictor formulations both compute the step with input, stages and result
    limited. *)
Definition no_physics {I} : vec I -> vec I := fun _ => vzero.
Theorem limited_formulations_agree :
  forall (I : Type) A s (F L : vec I -> vec I) dt k fi x, (0 < s)%nat -> (forall v, L (L v) = L v) ->
  erk_step_limited A s (fun z => F (L z)) L dt x (snd (increment_cycle A s L dt F no_physics k x)) /\
  snd (predictor_cycle A s L dt F no_physics fi x) = snd (increment_cycle A s L dt F no_physics k x).
Proof.
  intros I A s F L dt k fi x Hs HL.
  assert (E : (fun z => F (L z) +v no_physics z) = fun z => F (L z)).
  { apply functional_extensionality; intros z. unfold no_physics. generalize (F (L z)). intros; vring. }
  split.
  - rewrite <- E. apply increment_cycle_spec; exact Hs.
  - eapply erk_step_limited_unique; [apply predictor_cycle_spec; assumption|].
    exact (increment_cycle_spec A s L dt F no_physics k x Hs).
Qed.
Print Assumptions limited_formulations_agree.

(** With both a limiter and physics the two formulations differ: the increment
    formulation evaluates physics before limiting the stage value. *)
Theorem limited_formulations_with_physics_refuted :
  exists (F P L : vec unit -> vec unit) x, (forall v, L (L v) = L v) /\ linear_op P /\
  snd (increment_cycle tab_SSPRK2_2 2 L 1 F P (fun _ => vzero) x) tt = 1/2 /\
  snd (predictor_cycle tab_SSPRK2_2 2 L 1 F P (fun _ => vzero) x) tt = 0.
Proof.
  exists (fun v => (-3) *v v), (fun v => (-1) *v v), (fun v => fun _ => Rmax 0 (v tt)), (fun _ => 1).
  split; [intros v; apply functional_extensionality; intros _; rewrite (Rmax_right 0 (Rmax _ _)); [reflexivity|apply Rmax_l]|].
  split; [split; intros; vring|].
  unfold increment_cycle, predictor_cycle. cbn. unfold upd, rhs_physics_then_limit, axpy, tab_SSPRK2_2, table; cbn.
  vunfold. split.
  - unfold Rmax. repeat destruct (Rle_dec _ _); lra.
  - unfold Rmax. repeat destruct (Rle_dec _ _); lra.
Qed.
Print Assumptions limited_formulations_with_physics_refuted.

Lemma apply_cycles_iterates {I} (cycle : nat -> (nat -> vec I) -> vec I -> (nat -> vec I) * vec I) (g : vec I -> vec I) :
  (forall idx st x, snd (cycle idx st x) = g x) ->
  forall n st x, snd (apply_cycles cycle n st x) = niter n g x.
Proof.
  intros H n st x. unfold apply_cycles. induction n as [|n IH]; [reflexivity|].
  rewrite seq_S, fold_left_app, niter_S_out. cbn [fold_left Nat.add].
  destruct (fold_left _ (seq 0 n) (st, x)) as [st' x']. cbn [snd] in IH. rewrite H, IH. reflexivity.
Qed.

(** C17/C15.  With n subcycles the increment and predictor formulations are n
    successive textbook steps. *)
Theorem subcycled_runge_kutta :
  forall (I : Type) A s (F P : vec I -> vec I) dt n store x, (0 < s)%nat ->
  erk_steps A s (total F P) dt n x (apply_increment A s no_limiter dt F P n store x) /\
  erk_steps A s (total F P) dt n x (apply_predictor A s no_limiter dt F P n store x).
Proof.
  intros I A s F P dt n store x Hs. rewrite !erk_steps_iff. split.
  - apply apply_cycles_iterates. intros _ st y. apply increment_is_textbook; [exact Hs|]. apply erk_result_spec.
  - apply apply_cycles_iterates. intros _ st y. apply predictor_is_textbook; [exact Hs|]. apply erk_result_spec.
Qed.
Print Assumptions subcycled_runge_kutta.

Example formulations_example :
  let F := fun v : vec unit => (-2) *v v in
  linear_op F /\
  erk_step tab_RK4 4 F (1/2) (fun _ => 1) (fun _ => 3/8).
Proof.
  cbv zeta. split; [split; intros; vring|].
  exists (fun i => match i with 0%nat => fun _ => -2 | 1%nat => fun _ => -1 | 2%nat => fun _ => -3/2 | _ => fun _ => -1/2 end).
  split.
  - intros i Hi. assert (i = 0 \/ i = 1 \/ i = 2 \/ i = 3)%nat as [->|[->|[->| ->]]] by lia;
      cbn; vfield.
  - cbn. vfield.
Qed.

(** C18, what the code computes: with n subcycles the linear formulation returns the
    textbook result plus the whole change of the first n-1 subcycles again. *)
Theorem linear_subcycled_value :
  forall (I : Type) A s dt (F P : vec I -> vec I) n store y0,
  linear_op (total F P) -> (0 < s)%nat -> (0 < n)%nat ->
  forall yn yn1, erk_steps A s (total F P) dt n y0 yn -> erk_steps A s (total F P) dt (n - 1) y0 yn1 ->
  apply_linear A s no_limiter dt F F P n store y0 = yn +v (yn1 -v y0).
Proof.
  intros I A s dt F P n store y0 HF Hs Hn yn yn1 H1 H2. apply erk_steps_iff in H1, H2. subst.
  apply linear_apply_surplus; assumption.
Qed.
Print Assumptions linear_subcycled_value.

(** C18, exact extent: the linear formulation agrees with n successive steps iff the
    first n-1 of them leave the state unchanged; in particular for n = 1. *)
Theorem linear_subcycled_correct_iff_partial :
  forall (I : Type) A s dt (F P : vec I -> vec I) n store y0,
  linear_op (total F P) -> (0 < s)%nat -> (0 < n)%nat ->
  (erk_steps A s (total F P) dt n y0 (apply_linear A s no_limiter dt F F P n store y0) <->
   erk_steps A s (total F P) dt (n - 1) y0 y0).
Proof.
  intros I A s dt F P n store y0 HF Hs Hn. rewrite !erk_steps_iff.
  unfold no_limiter. rewrite (linear_apply_surplus A s dt F P n store y0 HF Hs Hn). cbv zeta.
  change (fun v : vec I => F v +v P v) with (total F P).
  generalize (niter n (erk_result A s (total F P) dt) y0) (niter (n - 1) (erk_result A s (total F P) dt) y0). intros a b.
  split; intros H.
  - apply functional_extensionality; intros i. apply (f_equal (fun f => f i)) in H. vunfold. lra.
  - rewrite <- H. vring.
Qed.
Print Assumptions linear_subcycled_correct_iff_partial.

(** C18 refuted: forward Euler, dy/dt = y, two subcycles of size 1 from 1: 5 instead
    of 4. *)
Theorem linear_subcycled_refuted :
  exists (F : vec unit -> vec unit) (y0 : vec unit),
    linear_op F /\
    apply_linear tab_ForwardEuler 1 no_limiter 1 F F no_physics 2 (fun _ => vzero) y0 tt = 5 /\
    (forall y2, erk_steps tab_ForwardEuler 1 F 1 2 y0 y2 -> y2 tt = 4).
Proof.
  exists (fun v => v), (fun _ => 1). split; [split; reflexivity|]. split.
  - unfold apply_linear, apply_cycles. cbn. unfold upd, no_limiter, rhs_physics_then_limit, no_physics; cbn. unfold tab_ForwardEuler, table; cbn. vunfold. ring.
  - intros y2 H. apply erk_steps_iff in H. subst y2. cbn. unfold erk_result, b_coef, tab_ForwardEuler, table; cbn.
    unfold upd; cbn. vunfold. ring.
Qed.
Print Assumptions linear_subcycled_refuted.

(* ------------------------------------------------------------------ *)
(** C19: order conditions of the provided schemes. *)
Ltac order_tac := unfold has_order4, has_order3, has_order2, has_order1, order1, order2, order3a, order3b,
  order4a, order4b, order4c, order4d, b_coef, c_coef; cbn; repeat split; field.

Theorem explicit_schemes_have_advertised_order :
  has_order1 tab_ForwardEuler 1 /\
  has_order2 tab_SSPRK2_2 2 /\ has_order2 tab_SSPRK2_3 3 /\ has_order2 tab_SSPRK2_4 4 /\
  has_order3 tab_SSPRK3_3 3 /\ has_order3 tab_SSPRK3_4 4 /\
  has_order4 tab_RK4 4.
Proof.
  unfold tab_ForwardEuler, tab_SSPRK2_2, tab_SSPRK2_3, tab_SSPRK2_4, tab_SSPRK3_3, tab_SSPRK3_4, tab_RK4, table.
  repeat match goal with |- _ /\ _ => split end; order_tac.
Qed.
Print Assumptions explicit_schemes_have_advertised_order.

(** The orders are not exceeded (the statements are not vacuous). *)
Theorem explicit_schemes_not_of_higher_order :
  ~ order2 tab_ForwardEuler 1 /\ ~ order3a tab_SSPRK2_2 2 /\ ~ order4d tab_SSPRK3_3 3.
Proof.
  unfold order2, order3a, order4d, b_coef, c_coef, tab_ForwardEuler, tab_SSPRK2_2, tab_SSPRK3_3, table; cbn.
  repeat split; intros H; lra.
Qed.
Print Assumptions explicit_schemes_not_of_higher_order.

(** The numerically optimised 5-stage schemes meet the conditions within 1e-9. *)
Definition near (x y : R) := Rabs (x - y) <= 1 / 10 ^ 9.
Ltac near_tac := unfold near, b_coef, c_coef, tab_SSPRK3_5, tab_SSPRK4_5, table; cbn;
  apply Rabs_le; split; lra.

Definition near_order3 A s :=
  near (rsum s (b_coef A s)) 1 /\
  near (rsum s (fun i => b_coef A s i * c_coef A i)) (1/2) /\
  near (rsum s (fun i => b_coef A s i * c_coef A i ^ 2)) (1/3) /\
  near (rsum s (fun i => b_coef A s i * rsum i (fun j => a_coef A i j * c_coef A j))) (1/6).
Definition near_order4 A s := near_order3 A s /\
  near (rsum s (fun i => b_coef A s i * c_coef A i ^ 3)) (1/4) /\
  near (rsum s (fun i => b_coef A s i * (c_coef A i * rsum i (fun j => a_coef A i j * c_coef A j)))) (1/8) /\
  near (rsum s (fun i => b_coef A s i * rsum i (fun j => a_coef A i j * c_coef A j ^ 2))) (1/12) /\
  near (rsum s (fun i => b_coef A s i * rsum i (fun j => a_coef A i j * rsum j (fun l => a_coef A j l * c_coef A l)))) (1/24).

Theorem five_stage_schemes_order_to_rounding :
  near_order3 tab_SSPRK3_5 5 /\ near_order4 tab_SSPRK4_5 5.
Proof.
  unfold near_order4, near_order3. repeat match goal with |- _ /\ _ => split end; near_tac.
Qed.
Print Assumptions five_stage_schemes_order_to_rounding.

(** C19.  For every linear autonomous problem the step is a polynomial in dt F whose
    coefficients beta_m are the tall-tree sums. *)
Fixpoint tall (A : nat -> nat -> R) (m i : nat) : R :=
  match m with O => 1 | S q => rsum i (fun j => a_coef A i j * tall A q j) end.
Definition beta (A : nat -> nat -> R) (s m : nat) : R :=
  match m with O => 1 | S q => rsum s (fun i => b_coef A s i * tall A q i) end.

Lemma tall_zero A : forall m i, (i < m)%nat -> tall A m i = 0.
Proof.
  induction m as [|m IH]; intros i Hi; [lia|]. cbn. apply rsum_0. intros j Hj. rewrite IH by lia. ring.
Qed.

Lemma vsum_S_left {I} n (f : nat -> vec I) : vsum (S n) f = f 0%nat +v vsum n (fun k => f (S k)).
Proof. replace (S n) with (1 + n)%nat by lia. rewrite vsum_split. cbn. vring. Qed.

Lemma vsum_swap {I} n m (f : nat -> nat -> vec I) :
  vsum n (fun i => vsum m (fun j => f i j)) = vsum m (fun j => vsum n (fun i => f i j)).
Proof.
  induction n as [|n IH]; cbn; [symmetry; apply vsum_0; reflexivity|]. rewrite IH, <- vsum_add. reflexivity.
Qed.

Lemma niter_out_F {I} (F : vec I -> vec I) m y : F (niter m F y) = niter (S m) F y.
Proof. symmetry; apply niter_S_out. Qed.

Lemma rsum_scal_r n f a : rsum n (fun k => f k * a) = rsum n f * a.
Proof. induction n as [|n IH]; cbn; [ring|rewrite IH; ring]. Qed.

Theorem linear_problem_step :
  forall (I : Type) A s (F : vec I -> vec I) dt y y1, linear_op F ->
  erk_step A s F dt y y1 ->
  y1 = vsum (S s) (fun m => (beta A s m * dt ^ m) *v niter m F y).
Proof.
  intros I A s F dt y y1 HF (k & Hk & ->).
  assert (HC : forall n (c : nat -> R), (forall j, (j < n)%nat -> k j = vsum s (fun m => (tall A m j * dt ^ m) *v niter (S m) F y)) ->
    y +v dt *v vsum n (fun j => c j *v k j) =
    vsum (S s) (fun m => (match m with O => 1 | S q => rsum n (fun j => c j * tall A q j) end * dt ^ m) *v niter m F y)).
  { intros n c H. rewrite vsum_S_left. cbn [pow niter].
    replace (vsum s (fun m => (rsum n (fun j => c j * tall A m j) * (dt * dt ^ m)) *v niter m F (F y)))
      with (dt *v vsum n (fun j => c j *v k j)); [vring|].
    rewrite <- vsum_scal.
    transitivity (vsum n (fun j => vsum s (fun m => (c j * tall A m j * (dt * dt ^ m)) *v niter (S m) F y))).
    - apply vsum_ext. intros j Hj. rewrite H by lia. rewrite <- !vsum_scal. apply vsum_ext. intros; vring.
    - rewrite vsum_swap. apply vsum_ext. intros m _. rewrite vsum_scal_const, rsum_scal_r. reflexivity. }
  assert (HY : forall i, (i < s)%nat -> k i = vsum s (fun m => (tall A m i * dt ^ m) *v niter (S m) F y)).
  { intros i. induction i as [i IH] using lt_wf_ind; intros Hi. rewrite Hk by exact Hi.
    rewrite HC by (intros j Hj; apply IH; lia). cbn [vsum].
    destruct s as [|s']; [lia|].
    assert (Z : rsum i (fun j => a_coef A i j * tall A s' j) = 0).
    { change (tall A (S s') i = 0). apply tall_zero; lia. }
    rewrite Z. replace (0 * dt ^ S s') with 0 by ring.
    rewrite (proj1 HF), (proj2 HF). replace (0 *v F (niter (S s') F y)) with (@vzero I) by vring.
    rewrite linear_op_sum by exact HF.
    replace (forall x : vec I, x +v vzero = x) with (forall x : vec I, x +v vzero = x) by reflexivity.
    transitivity (vsum (S s') (fun m => F ((match m with O => 1 | S q => rsum i (fun j => a_coef A i j * tall A q j) end * dt ^ m) *v niter m F y))); [vring|].
    apply vsum_ext. intros m _. rewrite (proj2 HF), niter_out_F. destruct m; reflexivity. }
  apply HC. exact HY.
Qed.
Print Assumptions linear_problem_step.

(** The 5-stage schemes are not exactly consistent: their weights do not sum to 1. *)
Theorem five_stage_schemes_exact_order_refuted :
  ~ order1 tab_SSPRK3_5 5 /\ ~ order1 tab_SSPRK4_5 5.
Proof.
  unfold order1, b_coef, tab_SSPRK3_5, tab_SSPRK4_5, table; cbn. split; intros H; lra.
Qed.
Print Assumptions five_stage_schemes_exact_order_refuted.

(** C19 on the linear test problem: any scheme meeting the order-4 conditions agrees
    with the Taylor polynomial of the exponential through dt^4. *)
Theorem linear_problem_taylor :
  forall A s, has_order4 A s ->
  beta A s 0 = 1 /\ beta A s 1 = 1 /\ beta A s 2 = 1/2 /\ beta A s 3 = 1/6 /\ beta A s 4 = 1/24.
Proof.
  intros A s (((H1 & H2) & _ & H3) & _ & _ & _ & H4). unfold beta.
  assert (T0 : forall i, tall A 0 i = 1) by reflexivity.
  assert (T1 : forall i, tall A 1 i = c_coef A i).
  { intros i. cbn. unfold c_coef. apply rsum_ext. intros; ring. }
  assert (T2 : forall i, tall A 2 i = rsum i (fun j => a_coef A i j * c_coef A j)).
  { intros i. change (tall A 2 i) with (rsum i (fun j => a_coef A i j * tall A 1 j)).
    apply rsum_ext. intros j _. rewrite T1. reflexivity. }
  assert (T3 : forall i, tall A 3 i = rsum i (fun j => a_coef A i j * rsum j (fun l => a_coef A j l * c_coef A l))).
  { intros i. change (tall A 3 i) with (rsum i (fun j => a_coef A i j * tall A 2 j)).
    apply rsum_ext. intros j _. rewrite T2. reflexivity. }
  repeat split.
  - rewrite <- H1. apply rsum_ext. intros i _. rewrite T0. ring.
  - rewrite <- H2. apply rsum_ext. intros i _. rewrite T1. ring.
  - rewrite <- H3. apply rsum_ext. intros i _. rewrite T2. ring.
  - rewrite <- H4. apply rsum_ext. intros i _. rewrite T3. ring.
Qed.
Print Assumptions linear_problem_taylor.

(** RK4 on dy/dt = F y with F linear is the truncated exponential. *)
Theorem rk4_linear_problem :
  forall (I : Type) (F : vec I -> vec I) dt k x, linear_op F ->
  snd (increment_cycle tab_RK4 4 no_limiter dt F no_physics k x) =
    x +v dt *v F x +v (dt^2/2) *v F (F x) +v (dt^3/6) *v F (F (F x)) +v (dt^4/24) *v F (F (F (F x))).
Proof.
  intros I F dt k x HF.
  assert (H : erk_step tab_RK4 4 F dt x (snd (increment_cycle tab_RK4 4 no_limiter dt F no_physics k x))).
  { replace F with (total F no_physics) at 1.
    - apply (increment_is_textbook I tab_RK4 4 F no_physics dt k x _ ltac:(lia)). reflexivity.
    - apply functional_extensionality. intros v. unfold total, no_physics. generalize (F v). intros; vring. }
  rewrite (linear_problem_step I _ _ F dt x _ HF H).
  assert (O : has_order4 tab_RK4 4) by (unfold tab_RK4, table; order_tac).
  destruct (linear_problem_taylor _ _ O) as (B0 & B1 & B2 & B3 & B4).
  cbn [vsum]. rewrite B0, B1, B2, B3, B4. cbn [niter].
  generalize (F x) (F (F x)) (F (F (F x))) (F (F (F (F x)))). intros a b c d. vfield.
Qed.
Print Assumptions rk4_linear_problem.

(* ------------------------------------------------------------------ *)
(** C20: linear invariants. *)

(** If a linear functional is unchanged by the right-hand side (l(F x) = 0 for all
    x) and by the limiter, no step changes it. *)
Lemma limited_step_invariant {I} A s (G L : vec I -> vec I) dt x y1 l :
  linear_fun l -> (forall z, l (G z) = 0) -> (forall z, l (L z) = l z) ->
  erk_step_limited A s G L dt x y1 -> l y1 = l x.
Proof.
  intros Hl HF HL (k & Hk & ->). rewrite HL, (proj1 Hl), (proj2 Hl), HL, linear_fun_sum by exact Hl.
  rewrite rsum_0; [ring|]. intros j Hj. rewrite (proj2 Hl), Hk by exact Hj. rewrite HF. ring.
Qed.

Theorem linear_invariants_preserved :
  forall (I : Type) A s (F P L : vec I -> vec I) dt n store x (l : vec I -> R), (0 < s)%nat ->
  linear_fun l -> (forall z, l (F z) = 0) -> (forall z, l (P z) = 0) ->
  (forall z, L (L z) = L z) -> (forall z, l (L z) = l z) ->
  l (apply_increment A s L dt F P n store x) = l x /\
  l (apply_predictor A s L dt F P n store x) = l x.
Proof.
  intros I A s F P L dt n store x l Hs Hl HF HP HI HL. unfold apply_increment, apply_predictor, apply_cycles. split.
  - revert store x. induction n as [|n IH] using nat_ind; [reflexivity|]. intros store x.
    rewrite seq_S, fold_left_app. cbn [fold_left Nat.add]. specialize (IH store x).
    destruct (fold_left _ (seq 0 n) (store, x)) as [st z]. cbn [snd] in IH. rewrite <- IH.
    refine (limited_step_invariant A s _ L dt z _ l Hl _ HL (increment_cycle_spec A s L dt F P st z Hs)).
    intros z'. cbv beta. rewrite (proj1 Hl), HF, HP. ring.
  - revert store x. induction n as [|n IH] using nat_ind; [reflexivity|]. intros store x.
    rewrite seq_S, fold_left_app. cbn [fold_left Nat.add]. specialize (IH store x).
    destruct (fold_left _ (seq 0 n) (store, x)) as [st z]. cbn [snd] in IH. rewrite <- IH.
    refine (limited_step_invariant A s _ L dt z _ l Hl _ HL (predictor_cycle_spec A s L dt HI F P st z Hs)).
    intros z'. cbv beta. rewrite (proj1 Hl), HF, HP. ring.
Qed.
Print Assumptions linear_invariants_preserved.

(** The linear formulation (one subcycle): only the operator of the last stage needs
    to conserve l; the earlier stages may use a different, non-conservative form. *)
Theorem linear_formulation_invariant :
  forall (I : Type) A s (F1 F2 P L : vec I -> vec I) dt store x (l : vec I -> R), (0 < s)%nat ->
  linear_fun l -> (forall z, l (F2 z) = 0) -> (forall z, l (P z) = 0) -> (forall z, l (L z) = l z) ->
  l (apply_linear A s L dt F1 F2 P 1 store x) = l x.
Proof.
  intros I A s F1 F2 P L dt store x l Hs Hl HF HP HL. unfold apply_linear, apply_cycles. cbn [seq fold_left].
  unfold linear_cycle, linear_cycle_of. destruct s as [|q]; [lia|]. rewrite seq_S, fold_left_app. cbn [fold_left Nat.add].
  destruct (fold_left _ (seq 0 q) (store, L x)) as [lhs x1]. unfold linear_stage.
  replace (Nat.ltb (S q * 0 + q + 1) (1 * S q)) with false by (symmetry; apply Nat.ltb_ge; lia).
  cbn [snd]. unfold rhs_physics_then_limit. rewrite HL, (proj1 Hl), (proj2 Hl), (proj1 Hl), HF, HP, HL. ring.
Qed.
Print Assumptions linear_formulation_invariant.

(** ... but not with subcycles: the first n-1 subcycles take all their stages with
    the non-conservative form. *)
Theorem linear_formulation_subcycled_invariant_refuted :
  exists (F1 F2 : vec unit -> vec unit) (l : vec unit -> R) (x : vec unit),
    linear_op F1 /\ linear_op F2 /\ linear_fun l /\ (forall z, l (F2 z) = 0) /\
    l (apply_linear tab_ForwardEuler 1 no_limiter 1 F1 F2 no_physics 2 (fun _ => vzero) x) <> l x.
Proof.
  exists (fun v => v), (fun _ => vzero), (fun v => v tt), (fun _ => 1).
  repeat split; intros; try vring; try reflexivity.
  unfold apply_linear, apply_cycles. cbn. unfold upd, no_limiter, rhs_physics_then_limit, no_physics; cbn. unfold tab_ForwardEuler, table; cbn. vunfold. lra.
Qed.
Print Assumptions linear_formulation_subcycled_invariant_refuted.

(** Constant sources: with weights summing to one, n subcycles of size dt add exactly
    n dt times the source. *)
Theorem constant_source_integrated :
  forall (I : Type) A s (g : vec I) dt n store x, (0 < s)%nat -> order1 A s ->
  apply_increment A s no_limiter dt (fun _ => g) no_physics n store x = x +v (INR n * dt) *v g.
Proof.
  intros I A s g dt n store x Hs H1.
  pose proof (proj1 (subcycled_runge_kutta I A s (fun _ => g) no_physics dt n store x Hs)) as H.
  revert H. generalize (apply_increment A s no_limiter dt (fun _ => g) no_physics n store x). clear store.
  induction n as [|n IH]; intros y H.
  - cbn in H. subst y. cbn. vring.
  - destruct H as (z & Hz & k & Hk & ->). rewrite (IH z Hz). rewrite S_INR.
    assert (E : vsum s (fun j => b_coef A s j *v k j) = g).
    { transitivity (vsum s (fun j => b_coef A s j *v g)).
      - apply vsum_ext. intros j Hj. rewrite (Hk j Hj). unfold total, no_physics. vring.
      - rewrite vsum_scal_const. unfold order1 in H1.
        transitivity (1 *v g); [|vring]. f_equal. exact H1. }
    rewrite E. vring.
Qed.
Print Assumptions constant_source_integrated.

Example linear_invariants_example :
  let F := fun v : vec bool => fun b : bool => if b then v false else - v false in
  let l := fun v : vec bool => v true + v false in
  linear_fun l /\ (forall z, l (F z) = 0) /\ F (fun _ => 1) true <> 0.
Proof. cbv zeta. repeat split; intros; vunfold; lra. Qed.
