(** Property C27 (and C22, C71): backward Euler, theta, trapezium rule, TR-BDF2. *)
From Verif Require Import Base Vec Fml ThetaSpec Theta MultilevelFacts MultilevelSpec.
Open Scope R_scope.

Definition neg {I} (N : vec I -> vec I) : vec I -> vec I := fun x => (-1) *v N x.

Lemma theta_cycle_iff {I} (N P : vec I -> vec I) dt X theta src x y src' :
  theta_cycle N P dt X theta src x y src' <-> src' = P x /\ theta_step theta (neg N) (neg P) dt x y.
Proof.
  unfold theta_cycle. split; intros [-> H]; split; try reflexivity.
  - revert H. apply veq_shift. unfold theta_res, neg. fml. vfin.
  - revert H. apply veq_shift. unfold theta_res, neg. fml. vfin.
Qed.
Lemma be_cycle_iff {I} (N P : vec I -> vec I) dt X src x y src' :
  be_cycle N P dt X src x y src' <-> src' = P x /\ theta_step 1 (neg N) (neg P) dt x y.
Proof.
  unfold be_cycle. split; intros [-> H]; split; try reflexivity.
  - revert H. apply veq_shift. unfold be_res, neg. fml. vfin.
  - revert H. apply veq_shift. unfold be_res, neg. fml. vfin.
Qed.
Lemma cycles_iff {I} (cycle : vec I -> vec I -> vec I -> vec I -> Prop) (P : vec I -> vec I) (step : vec I -> vec I -> Prop) :
  (forall s x y s', cycle s x y s' <-> s' = P x /\ step x y) ->
  forall n s x y, (exists s', cycles cycle n s x y s') <-> steps step n x y.
Proof.
  intros H. induction n as [|n IH]; intros s x y; cbn.
  - split; [intros [s' [-> _]]; reflexivity|intros ->; exists s; auto].
  - split.
    + intros (s' & x1 & s1 & C & R). apply H in C as [_ C]. exists x1; split; [exact C|].
      apply (IH s1). exists s'; exact R.
    + intros (z & C & R). apply (IH (P x)) in R as [s' R]. exists s', z, (P x). split; [apply H; auto|exact R].
Qed.

(** C27.  For every right-hand side (residual y' + N(y) + physics), every physics, every
    time step, theta and number of cycles: the schemes solve their documented
    equations; the physics enters explicitly, evaluated at the start of each cycle. *)
Theorem theta_schemes_are_textbook :
  forall (I : Type) (N P : vec I -> vec I) (dt : R) (X src : vec I) (n : nat) (x y : vec I),
  (forall theta, (exists src', theta_apply N P dt X theta n src x y src') <-> steps (theta_step theta (neg N) (neg P) dt) n x y) /\
  ((exists src', be_apply N P dt X n src x y src') <-> steps (theta_step 1 (neg N) (neg P) dt) n x y) /\
  ((exists src', trapezium_apply N P dt X n src x y src') <-> steps (theta_step (1/2) (neg N) (neg P) dt) n x y).
Proof.
  intros I N P dt X src n x y. split; [intros theta|split].
  - apply cycles_iff with (P := P). intros; apply theta_cycle_iff.
  - apply cycles_iff with (P := P). intros; apply be_cycle_iff.
  - apply cycles_iff with (P := P). intros; apply theta_cycle_iff.
Qed.
Print Assumptions theta_schemes_are_textbook.

(** C27.  Which parameters are accepted. *)
Theorem theta_parameter_check :
  forall (p : R) (wrapper : bool),
  ((exists q, theta_construct p wrapper (Ok q)) <-> (0 <= p <= 1 /\ wrapper = false)) /\
  ((exists q, tr_bdf2_construct p wrapper (Ok q)) <-> (0 <= p <= 1 /\ wrapper = false)) /\
  (* what is refused, and how *)
  (theta_construct p wrapper (Err ValueError) <-> ~ 0 <= p <= 1) /\
  (tr_bdf2_construct p wrapper (Err ValueError) <-> ~ 0 <= p <= 1) /\
  (theta_construct p wrapper (Err NotImplementedError) <-> (0 <= p <= 1 /\ wrapper = true)) /\
  (tr_bdf2_construct p wrapper (Err NotImplementedError) <-> (0 <= p <= 1 /\ wrapper = true)) /\
  (* an accepted parameter is the one used *)
  (forall q, theta_construct p wrapper (Ok q) \/ tr_bdf2_construct p wrapper (Ok q) -> q = p).
Proof.
  intros p w. unfold theta_construct, tr_bdf2_construct.
  assert (D : (p < 0 \/ p > 1) \/ ~ (p < 0 \/ p > 1)) by (destruct (Rlt_dec p 0), (Rgt_dec p 1); tauto).
  assert (R : 0 <= p <= 1 <-> ~ (p < 0 \/ p > 1)) by (split; lra).
  split; [|split; [|split; [|split; [|split; [|split]]]]].
  1,2: (split;
   [intros [q [[H E]|[H E]]]; [discriminate|]; destruct w; [discriminate|]; split; [lra|reflexivity]
   |intros [H ->]; exists p; right; split; [lra|reflexivity]]).
  1,2: (split; [intros [[H E]|[H E]]; [tauto|destruct w; discriminate E] | intros H; left; split; [tauto|reflexivity]]).
  1,2: (split; [intros [[H E]|[H E]]; [discriminate E|destruct w; [split; [tauto|reflexivity]|discriminate E]] | intros [H ->]; right; split; [tauto|reflexivity]]).
  intros q [H|H]; destruct H as [[_ E]|[_ E]]; try discriminate E; destruct w; try discriminate E; injection E as ->; reflexivity.
Qed.
Print Assumptions theta_parameter_check.

(** C27.  TR-BDF2 solves its documented two stages, for every accepted gamma except 0;
    without physics (src = 0). *)
Theorem tr_bdf2_is_textbook :
  forall (I : Type) (N : vec I -> vec I) (dt : R) (X : vec I) (g : R) (x y : vec I),
  0 < g <= 1 ->
  (exists s, tr_bdf2_apply N dt X g vzero x (Ok y) s) <-> tr_bdf2_step g (neg N) dt x y.
Proof.
  intros I N dt X g x y Hg.
  assert (G1 : g <> 0) by lra. assert (G2 : 2 - g <> 0) by lra.
  assert (TR : forall z, assemble N vzero (tr_res dt X g x z) = vzero <->
             z = x +v (dt * g / 2) *v neg N x +v (dt * g / 2) *v neg N z).
  { intros z. apply veq_shift. unfold tr_res, neg. fml. vfin. }
  assert (BD : forall z, assemble N vzero (bdf2_res dt X g x z y) = vzero <->
      y = (1 / (g * (2 - g))) *v z -v ((1 - g) ^ 2 / (g * (2 - g))) *v x +v ((1 - g) / (2 - g) * dt) *v neg N y).
  { intros z. apply veq_shift. unfold bdf2_res, neg. fml. apply functional_extensionality; intros i; vunfold. field; lra. }
  unfold tr_bdf2_apply, tr_bdf2_step. split.
  - intros (s & _ & [[H _]|[_ (z & yo & A & B & E)]]).
    + exfalso. apply Rmult_integral in H; lra.
    + injection E as <-. exists z. split; [apply TR; exact A|apply BD; exact B].
  - intros (z & A & B). exists vzero. split; [reflexivity|]. right. split; [apply Rmult_integral_contrapositive; split; assumption|].
    exists z, y. split; [apply TR; exact A|split; [apply BD; exact B|reflexivity]].
Qed.
Print Assumptions tr_bdf2_is_textbook.

(** C27 fails at gamma = 0: accepted by the constructor, but every step raises. *)
Theorem tr_bdf2_gamma_zero_refuted :
  forall (I : Type) (N : vec I -> vec I) (dt : R) (X x src : vec I),
  tr_bdf2_construct 0 false (Ok 0) /\
  forall r s, tr_bdf2_apply N dt X 0 src x r s -> r = Err ZeroDivisionError.
Proof.
  intros. split.
  - right; split; [lra|reflexivity].
  - intros r s (_ & [[_ E]|[H _]]); [exact E|exfalso; apply H; ring].
Qed.
Print Assumptions tr_bdf2_gamma_zero_refuted.

(** C27.  TR-BDF2 as a three-stage Runge-Kutta method (stages y, y_g, y1): it satisfies
    the second-order conditions for every gamma, and is exact for quadratic solutions. *)
Definition trb_A (g : R) (i j : nat) : R :=
  match i, j with
  | 1%nat, 0%nat | 1%nat, 1%nat => g / 2
  | 2%nat, 0%nat | 2%nat, 1%nat => 1 / (2 * (2 - g))
  | 2%nat, 2%nat => (1 - g) / (2 - g)
  | _, _ => 0
  end.
Theorem tr_bdf2_second_order :
  forall (I : Type) (g : R), 0 < g <= 1 ->
  (forall (F : vec I -> vec I) h y y1, tr_bdf2_step g F h y y1 <->
     exists Y : nat -> vec I,
       (forall i, (i < 3)%nat -> Y i = y +v h *v vsum 3 (fun j => trb_A g i j *v F (Y j))) /\ y1 = Y 2%nat) /\
  order2 3 (trb_A g) (trb_A g 2%nat) /\
  (forall (F : vec I -> vec I) (c : nat -> vec I) h t, poly_solution 2 c F ->
     tr_bdf2_step g F h (poly 2 c t) (poly 2 c (t + h))).
Proof.
  intros I g Hg. assert (G2 : 2 - g <> 0) by lra. assert (G1 : g <> 0) by lra. split; [|split].
  - intros F h y y1. unfold tr_bdf2_step. split.
    + intros (z & A & B). exists (fun i => match i with 0%nat => y | 1%nat => z | _ => y1 end). split; [|reflexivity].
      intros i Hi. destruct i as [|[|[|i]]]; [| | |lia]; cbn [vsum trb_A].
      * vfin.
      * rewrite A at 1. generalize (F y) (F z) (F y1); intros; vfin.
      * assert (E : forall k, y1 k = 1 / (g * (2 - g)) * z k - (1 - g) ^ 2 / (g * (2 - g)) * y k + (1 - g) / (2 - g) * h * F y1 k)
          by (intros k; exact (f_equal (fun v => v k) B)).
        assert (EA : forall k, z k = y k + h * g / 2 * F y k + h * g / 2 * F z k)
          by (intros k; exact (f_equal (fun v => v k) A)).
        revert E EA. generalize (F y) (F z) (F y1). intros u v w E EA.
        apply functional_extensionality; intros k. rewrite E. rewrite (EA k). vunfold. field; lra.
    + intros (Y & H & ->). pose proof (H 0%nat ltac:(lia)) as H0. pose proof (H 1%nat ltac:(lia)) as H1.
      pose proof (H 2%nat ltac:(lia)) as H2. cbn [vsum trb_A] in H0, H1, H2.
      assert (Y0 : Y 0%nat = y) by (rewrite H0; vfin).
      rewrite Y0 in *. exists (Y 1%nat). split.
      * rewrite H1 at 1. generalize (F y) (F (Y 1%nat)) (F (Y 2%nat)); intros; vfin.
      * assert (E1 := fun k => f_equal (fun v => v k) H1). assert (E2 := fun k => f_equal (fun v => v k) H2).
        revert E1 E2. generalize (F y) (F (Y 1%nat)) (F (Y 2%nat)). intros u v w E1 E2.
        apply functional_extensionality; intros k. cbn beta in E1, E2. unfold vsub, vadd, vscal. rewrite (E1 k), (E2 k). vunfold.
        field; lra.
  - unfold order2. cbn. split; field; lra.
  - intros F c h t H. exists (poly 2 c (t + g * h)). rewrite !H. split.
    + unfold poly, dpoly; cbn [vsum]; apply functional_extensionality; intros ?; vunfold; cbn [INR pow]; field.
    + unfold poly, dpoly; cbn [vsum]; apply functional_extensionality; intros ?; vunfold; cbn [INR pow]; field; lra.
Qed.
Print Assumptions tr_bdf2_second_order.

(** The trapezium rule is exact for quadratic solutions. *)
Theorem trapezium_exact_for_quadratics :
  forall (I : Type) (F : vec I -> vec I) (c : nat -> vec I) h t, poly_solution 2 c F ->
  theta_step (1/2) F (fun _ => vzero) h (poly 2 c t) (poly 2 c (t + h)).
Proof.
  intros I F c h t H. unfold theta_step. rewrite !H.
  unfold poly, dpoly; cbn [vsum]; apply functional_extensionality; intros ?; vunfold; cbn [INR pow]; field.
Qed.
Print Assumptions trapezium_exact_for_quadratics.

(** C71 fails for TR-BDF2: with a physics tendency of 1, no dynamics and source
    Functions initially zero, a step changes nothing.  (ImplicitRungeKutta: see IMEX.) *)
Theorem tr_bdf2_ignores_physics_refuted :
  forall (dt g : R) (X x : vec unit), 0 < g <= 1 ->
  forall r s, tr_bdf2_apply (fun _ => vzero) dt X g vzero x r s -> r = Ok x /\ s = vzero.
Proof.
  intros dt g X x Hg r s (-> & [[H _]|[_ (z & y & A & B & ->)]]).
  - exfalso; apply Rmult_integral in H; lra.
  - split; [f_equal|reflexivity].
    assert (Z : z = x). { revert A. apply veq_shift. unfold tr_res. fml. vfin. }
    subst z. revert B. apply veq_shift. unfold bdf2_res. fml. apply functional_extensionality; intros i; vunfold. field; lra.
Qed.
Print Assumptions tr_bdf2_ignores_physics_refuted.

(** C71.  Backward Euler and theta schemes evaluate the physics at the start of every
    cycle: whatever the source Functions held before has no influence. *)
Theorem theta_evaluates_physics :
  forall (I : Type) (N P : vec I -> vec I) (dt : R) (X : vec I) (theta : R) (n : nat) (src1 src2 x y s1 : vec I),
  theta_apply N P dt X theta (S n) src1 x y s1 <-> theta_apply N P dt X theta (S n) src2 x y s1.
Proof. intros. unfold theta_apply; cbn. unfold theta_cycle. tauto. Qed.
Print Assumptions theta_evaluates_physics.

(** Backward Euler decays monotonically for y' = -a y with a >= 0, for every time step
    and number of cycles (unconditional stability); so does theta >= 1/2 in norm. *)
Theorem theta_unconditionally_stable :
  forall (theta a dt : R) (n : nat) (x y : vec unit), 1/2 <= theta <= 1 -> 0 <= a -> 0 <= dt ->
  steps (theta_step theta (fun v => (- a) *v v) (fun _ => vzero) dt) n x y -> Rabs (y tt) <= Rabs (x tt).
Proof.
  intros th a dt n x y Hth Ha Hdt. revert x. induction n as [|n IH]; intros x H; cbn in H.
  - rewrite H. lra.
  - destruct H as (z & Hz & H). apply IH in H. eapply Rle_trans; [exact H|].
    apply (f_equal (fun v => v tt)) in Hz. unfold theta_step in Hz. vunfold.
    assert (Hp : 0 <= a * dt) by (apply Rmult_le_pos; assumption).
    set (q := a * dt) in *.
    assert (E : z tt * (1 + th * q) = x tt * (1 - (1 - th) * q)) by (unfold q; nra).
    assert (Hd : 0 < 1 + th * q) by nra.
    apply Rmult_le_reg_l with (1 + th * q); [exact Hd|].
    rewrite <- (Rabs_right (1 + th * q)) at 1 by lra. rewrite <- Rabs_mult.
    replace ((1 + th * q) * z tt) with (z tt * (1 + th * q)) by ring. rewrite E, Rabs_mult.
    rewrite Rmult_comm. apply Rmult_le_compat_r; [apply Rabs_pos|].
    apply Rabs_le. split; nra.
Qed.
Print Assumptions theta_unconditionally_stable.

(** A concrete step: y' = -y, h = 1, theta = 1/2 from 3 gives 1. *)
Example theta_example :
  theta_apply (fun v : vec unit => v) (fun _ => vzero) 1 vzero (1/2) 1 vzero (fun _ => 3) (fun _ => 1) vzero.
Proof. exists (fun _ => 1), vzero. split; [|split; reflexivity]. split; [reflexivity|]. unfold theta_res. fml. vfin. Qed.

(** C22 fails for BackwardEuler: a limiter (clipping negative values, say) given to the
    constructor is not applied to the result. *)
Definition clip (v : vec unit) : vec unit := fun i => Rmax 0 (v i).
Theorem backward_euler_limiter_ignored_refuted :
  exists (N : vec unit -> vec unit) (x y s : vec unit),
  backward_euler_apply N (fun _ => vzero) 1 vzero (Some clip) 1 vzero x y s /\ clip y <> y /\ clip x = x.
Proof.
  exists (fun _ => fun _ => 2), (fun _ => 1), (fun _ => -1), vzero. split; [|split].
  - exists (fun _ => -1), vzero. split; [|split; reflexivity]. split; [reflexivity|]. unfold be_res. fml. vfin.
  - intros H. apply (f_equal (fun v => v tt)) in H. unfold clip in H. rewrite Rmax_left in H; lra.
  - apply functional_extensionality; intros i. unfold clip. apply Rmax_right. lra.
Qed.
Print Assumptions backward_euler_limiter_ignored_refuted.
