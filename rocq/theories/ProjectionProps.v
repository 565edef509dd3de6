(** Theorems about conservative projection and reversible recovery: C58. *)
From Verif Require Import Base Vec Projection.
Open Scope R_scope.

Definition same (n : nat) (f g : fn) : Prop := forall i, (i < n)%nat -> f i = g i.
(** a space closed under linear combinations *)
Definition linear_space (V : fn -> Prop) : Prop := forall a b f g, V f -> V g -> V (fun i => a * f i + b * g i).

Lemma int_ext : forall n w f g, same n f g -> integral n w f = integral n w g.
Proof. intros n w f g H. apply rsum_ext. intros i Hi. rewrite H by auto. reflexivity. Qed.
Lemma int_lin : forall n w a b f g, integral n w (fun i => a * f i + b * g i) = a * integral n w f + b * integral n w g.
Proof.
  intros. unfold integral. rewrite <- !rsum_scal, <- rsum_add. apply rsum_ext. intros. ring.
Qed.
Lemma int_zero_pos : forall n w f, (forall i, (i < n)%nat -> 0 < w i) -> (forall i, (i < n)%nat -> 0 <= f i) -> integral n w f = 0 -> forall i, (i < n)%nat -> f i = 0.
Proof.
  intros n w f W F. unfold integral.
  assert (G : forall m, (m <= n)%nat -> 0 <= rsum m (fun i => w i * f i) /\ (rsum m (fun i => w i * f i) = 0 -> forall i, (i < m)%nat -> f i = 0)).
  { induction m as [|m IH]; intros Hm; cbn [rsum]; [split; [lra|intros; lia]|].
    destruct (IH ltac:(lia)) as [P Z]. assert (T : 0 <= w m * f m) by (apply Rmult_le_pos; [apply Rlt_le, W; lia|apply F; lia]).
    split; [lra|]. intros E i Hi. destruct (Nat.eq_dec i m) as [->|].
    - assert (Q : w m * f m = 0) by lra. apply Rmult_integral in Q. destruct Q as [Q|]; auto. specialize (W m ltac:(lia)). lra.
    - apply Z; [lra|lia]. }
  intros E i Hi. apply (proj2 (G n (le_n n)) E i Hi).
Qed.

(** ** The conservative projection *)
(** total mass: the exact balance *)
Lemma mass_balance : forall n w (V : fn -> Prop) sm rs rt ms mt, V (fun _ => 1) -> conservative_project n w V sm rs rt ms mt ->
  integral n w (fun i => rt i * mt i) = integral n w (fun i => rs i * ms i) + m_mean n w ms sm * (integral n w rt - integral n w rs).
Proof.
  intros n w V sm rs rt ms mt V1 [_ H]. specialize (H _ V1). cbv beta zeta in H. set (mm := m_mean n w ms sm) in *.
  rewrite (int_ext n w (fun i => rs i * (1 * (ms i - mm))) (fun i => 1 * (rs i * ms i) + (- mm) * rs i)) in H by (intros i _; ring).
  rewrite (int_ext n w (fun i => rt i * (1 * (mt i - mm))) (fun i => 1 * (rt i * mt i) + (- mm) * rt i)) in H by (intros i _; ring).
  rewrite !int_lin in H. lra.
Qed.
(** C58: without mean subtraction the total mass is the same, for all densities and fields *)
Theorem conservative_projection_mass : forall n w (V : fn -> Prop) rs rt ms mt, V (fun _ => 1) -> conservative_project n w V false rs rt ms mt ->
  integral n w (fun i => rt i * mt i) = integral n w (fun i => rs i * ms i).
Proof. intros n w V rs rt ms mt V1 H. rewrite (mass_balance n w V false rs rt ms mt V1 H). unfold m_mean. ring. Qed.
(** with mean subtraction exactly when the field has zero mean or the densities have the same total *)
Theorem conservative_projection_mean_mass_partial : forall n w (V : fn -> Prop) rs rt ms mt, V (fun _ => 1) -> conservative_project n w V true rs rt ms mt ->
  (integral n w (fun i => rt i * mt i) = integral n w (fun i => rs i * ms i) <->
   integral n w ms / integral n w (fun _ => 1) = 0 \/ integral n w rt = integral n w rs).
Proof.
  intros n w V rs rt ms mt V1 H. rewrite (mass_balance n w V true rs rt ms mt V1 H). unfold m_mean. split.
  - intros E. assert (Q : integral n w ms / integral n w (fun _ => 1) * (integral n w rt - integral n w rs) = 0) by lra.
    apply Rmult_integral in Q. destruct Q; [left; auto|right; lra].
  - intros [-> | ->]; ring.
Qed.
(** so the unrestricted statement is false: densities 1 and 2, field 1 *)
Theorem conservative_projection_mean_mass_refuted : exists w (V : fn -> Prop) rs rt ms mt, V (fun _ => 1) /\ linear_space V /\ conservative_project 1 w V true rs rt ms mt /\
  integral 1 w (fun i => rt i * mt i) <> integral 1 w (fun i => rs i * ms i).
Proof.
  exists (fun _ => 1), (fun _ => True), (fun _ => 1), (fun _ => 2), (fun _ => 1), (fun _ => 1).
  split; auto. split; [intros ? ? ? ? ? ?; exact I|]. split.
  - split; auto. intros test _. unfold m_mean, integral. simpl. field.
  - unfold integral. simpl. lra.
Qed.
(** a constant field stays that constant when the mean is subtracted *)
Theorem conservative_projection_constant : forall n w (V : fn -> Prop) rs rt c mt, linear_space V -> V (fun _ => 1) ->
  (forall i, (i < n)%nat -> 0 < w i) -> (forall i, (i < n)%nat -> 0 < rt i) -> (0 < n)%nat ->
  conservative_project n w V true rs rt (fun _ => c) mt -> same n mt (fun _ => c).
Proof.
  intros n w V rs rt c mt L V1 W P Hn [Vm H]. cbv zeta in H.
  assert (Vol : integral n w (fun _ => 1) <> 0).
  { intros Z. pose proof (int_zero_pos n w (fun _ => 1) W (fun _ _ => Rle_0_1) Z 0%nat Hn). simpl in *. lra. }
  assert (M : m_mean n w (fun _ => c) true = c).
  { unfold m_mean. rewrite (int_ext n w (fun _ => c) (fun i => c * 1 + 0 * 0)) by (intros i _; ring). rewrite (int_lin n w c 0 (fun _ => 1) (fun _ => 0)). field. auto. }
  rewrite M in H. specialize (H (fun i => 1 * mt i + (- c) * 1) (L 1 (- c) mt (fun _ => 1) Vm V1)). cbv beta in H.
  rewrite (int_ext n w (fun i => rs i * ((1 * mt i + - c * 1) * (c - c))) (fun i => 0 * 0 + 0 * 0)) in H by (intros i _; ring). rewrite (int_lin n w 0 0 (fun _ => 0) (fun _ => 0)) in H.
  intros i Hi.
  assert (Z : rt i * (mt i - c) ^ 2 = 0).
  { apply (int_zero_pos n w (fun i => rt i * (mt i - c) ^ 2) W); auto.
    - intros j Hj. apply Rmult_le_pos; [apply Rlt_le; auto|apply pow2_ge_0].
    - rewrite (int_ext n w _ (fun i => rt i * ((1 * mt i + - c * 1) * (mt i - c)))); [lra|]. intros j _. ring. }
  apply Rmult_integral in Z. destruct Z as [Z|Z]; [specialize (P i Hi); lra|]. assert (mt i - c = 0) by nra. lra.
Qed.
(** and not in general when it is not subtracted *)
Theorem conservative_projection_constant_refuted : exists w (V : fn -> Prop) rs rt c mt, V (fun _ => 1) /\ linear_space V /\ conservative_project 1 w V false rs rt (fun _ => c) mt /\ ~ same 1 mt (fun _ => c).
Proof.
  exists (fun _ => 1), (fun _ => True), (fun _ => 1), (fun _ => 2), 1, (fun _ => / 2).
  split; auto. split; [intros ? ? ? ? ? ?; exact I|]. split.
  - split; auto. intros test _. unfold m_mean, integral. simpl. field.
  - intros S. specialize (S 0%nat ltac:(lia)). simpl in S. lra.
Qed.
(** with equal densities and a source already in the space, the projection does nothing *)
Theorem conservative_projection_identity : forall n w (V : fn -> Prop) sm rho m mt, linear_space V -> (forall i, (i < n)%nat -> 0 < w i) -> (forall i, (i < n)%nat -> 0 < rho i) ->
  V m -> conservative_project n w V sm rho rho m mt -> same n mt m.
Proof.
  intros n w V sm rho m mt L W P Vm [Vt H]. cbv beta zeta in H. specialize (H _ (L 1 (-1) m mt Vm Vt)). cbv beta in H. set (mm := m_mean n w m sm) in *.
  assert (Z : integral n w (fun i => rho i * (m i - mt i) ^ 2) = 0).
  { rewrite (int_ext n w _ (fun i => 1 * (rho i * ((1 * m i + -1 * mt i) * (m i - mm))) + (-1) * (rho i * ((1 * m i + -1 * mt i) * (mt i - mm))))) by (intros i _; ring).
    rewrite int_lin. lra. }
  intros i Hi. assert (Q : rho i * (m i - mt i) ^ 2 = 0).
  { apply (int_zero_pos n w (fun i => rho i * (m i - mt i) ^ 2) W); auto. intros j Hj. apply Rmult_le_pos; [apply Rlt_le; auto|apply pow2_ge_0]. }
  apply Rmult_integral in Q. destruct Q as [Q|Q]; [specialize (P i Hi); lra|]. assert (m i - mt i = 0) by nra. lra.
Qed.

(** ** Reversible recovery *)
(** Whatever the recovery and the projection into the higher-order space are: if the projection to
    the low-order space is additive and determined, and undoes the injection, then projecting the
    recovered field back returns the original field. *)
Theorem reversible_recovery : forall n rec high (low inj : fn -> fn -> Prop) q_low q_high back,
  (forall f g x y z, low f x -> low g y -> low (fun i => f i + g i) z -> same n z (fun i => x i + y i)) ->   (* additive, determined *)
  (forall x y, inj x y -> low y x) ->                                                                        (* undoes the injection *)
  reversible_recover rec high low inj q_low q_high -> low q_high back -> same n back q_low.
Proof.
  intros n rec high low inj q_low q_high back Add Undo [c1 [ch [L [J E]]]] B i Hi. subst q_high.
  rewrite (Add ch (high (rec q_low)) (fun i => q_low i - c1 i) c1 back (Undo _ _ J) L B i Hi). ring.
Qed.
(** The hypotheses hold for L2 projections between nested spaces *)
Lemma l2_unique : forall n w (V : fn -> Prop) f x y, linear_space V -> (forall i, (i < n)%nat -> 0 < w i) -> l2_project n w V f x -> l2_project n w V f y -> same n x y.
Proof.
  intros n w V f x y L W [Vx Hx] [Vy Hy] i Hi.
  pose proof (L 1 (-1) x y Vx Vy) as Vd. specialize (Hx _ Vd). specialize (Hy _ Vd). cbv beta in Hx, Hy.
  assert (Z : integral n w (fun i => (x i - y i) ^ 2) = 0).
  { rewrite (int_ext n w _ (fun i => 1 * ((1 * x i + -1 * y i) * x i) + (-1) * ((1 * x i + -1 * y i) * y i))) by (intros j _; ring).
    rewrite int_lin, Hx, Hy. ring. }
  assert (Q : (x i - y i) ^ 2 = 0) by (apply (int_zero_pos n w (fun i => (x i - y i) ^ 2) W); auto; intros; apply pow2_ge_0).
  assert (x i - y i = 0) by nra. lra.
Qed.
Theorem reversible_recovery_project : forall n w (Vlow Vhigh : fn -> Prop) rec high q_low q_high back,
  linear_space Vlow -> (forall f, Vlow f -> Vhigh f) -> (forall i, (i < n)%nat -> 0 < w i) -> Vlow q_low ->
  reversible_recover rec high (l2_project n w Vlow) (l2_project n w Vhigh) q_low q_high ->
  l2_project n w Vlow q_high back -> same n back q_low.
Proof.
  intros n w Vlow Vhigh rec high q_low q_high back L Nest W Vq [c1 [ch [Lo [J E]]]] B.
  assert (Hl : l2_project n w Vlow q_high q_low).
  { split; auto. intros test Vt. subst q_high. destruct Lo as [_ Lo]. destruct J as [_ J]. specialize (Lo test Vt). specialize (J test (Nest _ Vt)). cbv beta in J.
    rewrite (int_ext n w (fun i => test i * (q_low i - c1 i)) (fun i => 1 * (test i * q_low i) + (-1) * (test i * c1 i))) in J by (intros j _; ring). rewrite int_lin in J.
    rewrite (int_ext n w (fun i => test i * (ch i + high (rec q_low) i)) (fun i => 1 * (test i * ch i) + 1 * (test i * high (rec q_low) i))) by (intros j _; ring). rewrite int_lin. lra. }
  exact (l2_unique n w Vlow q_high back q_low L W B Hl).
Qed.
(** If the spaces are not nested it fails: low-order functions supported at point 0, high-order ones
    constant *)
Theorem reversible_recovery_not_nested_refuted : exists w (Vlow Vhigh : fn -> Prop) rec high q_low q_high back,
  linear_space Vlow /\ linear_space Vhigh /\ Vlow q_low /\ reversible_recover rec high (l2_project 2 w Vlow) (l2_project 2 w Vhigh) q_low q_high /\
  l2_project 2 w Vlow q_high back /\ ~ same 2 back q_low.
Proof.
  exists (fun _ => 1), (fun f => f 1%nat = 0), (fun f => f 0%nat = f 1%nat), (fun f => f), (fun _ => fun _ => 0),
    (fun i => match i with O => 1 | _ => 0 end), (fun i => / 2 + 0), (fun i => match i with O => / 2 | _ => 0 end).
  split; [intros a b f g Hf Hg; rewrite Hf, Hg; ring|]. split; [intros a b f g Hf Hg; rewrite Hf, Hg; ring|]. split; [reflexivity|]. split; [|split].
  - exists (fun _ => 0), (fun _ => / 2). split; [|split].
    + split; [reflexivity|]. intros test Vt. unfold integral. simpl. ring.
    + split; [reflexivity|]. intros test Vt. unfold integral. simpl. rewrite Vt. field.
    + reflexivity.
  - split; [reflexivity|]. intros test Vt. unfold integral. simpl. rewrite Vt. ring.
  - intros S. specialize (S 0%nat ltac:(lia)). simpl in S. lra.
Qed.

(** ** Conservative recovery *)
(** the recovered field has the mass of the original if the two densities have the same total; when
    both densities agree against all low-order test functions, projecting back (with or without mean
    subtraction) returns the original field *)
Theorem conservative_recovery_mass : forall n w (Vlow Vhigh : fn -> Prop) rec high rs rt q_low q_high, Vlow (fun _ => 1) -> Vhigh (fun _ => 1) ->
  integral n w rs = integral n w rt ->
  conservative_recover n w Vlow Vhigh rec high rs rt q_low q_high ->
  integral n w (fun i => rt i * q_high i) = integral n w (fun i => rs i * q_low i).
Proof.
  intros n w Vlow Vhigh rec high rs rt q_low q_high L1 H1 Eq [c1 [ch [Lo [J E]]]]. subst q_high.
  pose proof (mass_balance _ _ _ _ _ _ _ _ L1 Lo) as B1. pose proof (conservative_projection_mass _ _ _ _ _ _ _ H1 J) as B2. cbv beta in B2.
  rewrite (int_ext n w (fun i => rt i * (ch i + high (rec q_low) i)) (fun i => 1 * (rt i * ch i) + 1 * (rt i * high (rec q_low) i))) by (intros j _; ring). rewrite int_lin.
  rewrite (int_ext n w (fun i => rs i * (q_low i - c1 i)) (fun i => 1 * (rs i * q_low i) + (-1) * (rs i * c1 i))) in B2 by (intros j _; ring). rewrite int_lin in B2.
  rewrite Eq in B1. lra.
Qed.
Lemma conservative_unique : forall n w (V : fn -> Prop) sm rs rt ms x y, linear_space V -> (forall i, (i < n)%nat -> 0 < w i) -> (forall i, (i < n)%nat -> 0 < rt i) ->
  conservative_project n w V sm rs rt ms x -> conservative_project n w V sm rs rt ms y -> same n x y.
Proof.
  intros n w V sm rs rt ms x y L W P [Vx Hx] [Vy Hy] i Hi. cbv zeta in Hx, Hy. set (mm := m_mean n w ms sm) in *.
  pose proof (L 1 (-1) x y Vx Vy) as Vd. specialize (Hx _ Vd). specialize (Hy _ Vd). cbv beta in Hx, Hy.
  assert (Z : integral n w (fun i => rt i * (x i - y i) ^ 2) = 0).
  { rewrite (int_ext n w _ (fun i => 1 * (rt i * ((1 * x i + -1 * y i) * (x i - mm))) + (-1) * (rt i * ((1 * x i + -1 * y i) * (y i - mm))))) by (intros j _; ring).
    rewrite int_lin. lra. }
  assert (Q : rt i * (x i - y i) ^ 2 = 0).
  { apply (int_zero_pos n w (fun i => rt i * (x i - y i) ^ 2) W); auto. intros j Hj. apply Rmult_le_pos; [apply Rlt_le; auto|apply pow2_ge_0]. }
  apply Rmult_integral in Q. destruct Q as [Q|Q]; [specialize (P i Hi); lra|]. assert (x i - y i = 0) by nra. lra.
Qed.
Theorem conservative_recovery_reversible : forall n w (Vlow Vhigh : fn -> Prop) rec high rs rt q_low q_high sm back,
  linear_space Vlow -> (forall f, Vlow f -> Vhigh f) -> (forall i, (i < n)%nat -> 0 < w i) -> (forall i, (i < n)%nat -> 0 < rs i) -> Vlow q_low ->
  (forall test, Vlow test -> integral n w (fun i => rt i * test i) = integral n w (fun i => rs i * test i)) ->
  conservative_recover n w Vlow Vhigh rec high rs rt q_low q_high ->
  conservative_project n w Vlow sm rt rs q_high back -> same n back q_low.
Proof.
  intros n w Vlow Vhigh rec high rs rt q_low q_high sm back L Nest W P Vq Eq [c1 [ch [Lo [J E]]]] B.
  apply (conservative_unique n w Vlow sm rt rs q_high back q_low L W P B).
  split; auto. cbv zeta. set (mm := m_mean n w q_high sm). intros test Vt. destruct Lo as [_ Lo]. destruct J as [_ J]. cbv zeta in Lo, J. specialize (Lo test Vt). specialize (J test (Nest _ Vt)). cbv beta in Lo, J.
  specialize (Eq test Vt). set (m1 := m_mean n w (high (rec q_low)) true) in *. cbn [m_mean] in J. subst q_high. set (h := high (rec q_low)) in *.
  rewrite (int_ext n w (fun i => rt i * (test i * (ch i + h i - mm))) (fun i => 1 * (1 * (rt i * (test i * ch i)) + 1 * (rt i * (test i * h i))) + (- mm) * (rt i * test i))) by (intros j _; ring).
  rewrite (int_ext n w (fun i => rs i * (test i * (q_low i - mm))) (fun i => 1 * (rs i * (test i * q_low i)) + (- mm) * (rs i * test i))) by (intros j _; ring).
  rewrite (int_ext n w (fun i => rt i * (test i * (h i - m1))) (fun i => 1 * (rt i * (test i * h i)) + (- m1) * (rt i * test i))) in Lo by (intros j _; ring).
  rewrite (int_ext n w (fun i => rs i * (test i * (c1 i - m1))) (fun i => 1 * (rs i * (test i * c1 i)) + (- m1) * (rs i * test i))) in Lo by (intros j _; ring).
  rewrite (int_ext n w (fun i => rs i * (test i * (q_low i - c1 i - 0))) (fun i => 1 * (rs i * (test i * q_low i)) + (-1) * (rs i * (test i * c1 i)))) in J by (intros j _; ring).
  rewrite (int_ext n w (fun i => rt i * (test i * (ch i - 0))) (fun i => 1 * (rt i * (test i * ch i)) + 0 * 0)) in J by (intros j _; ring).
  rewrite (int_lin n w 1 0 _ (fun _ => 0)) in J. rewrite !int_lin in *. rewrite Eq in *. lra.
Qed.
(** Non-trivial instance: piecewise constant low-order space, unrestricted high-order space, two points *)
Example conservative_instance : conservative_recover 2 (fun _ => 1) (fun f => f 0%nat = f 1%nat) (fun _ => True) (fun f => f) (fun f i => f i + INR i)
  (fun _ => 2) (fun i => match i with O => 1 | _ => 3 end) (fun _ => 5) (fun i => (match i with O => - (3/2) | _ => - (1/2) end) + (5 + INR i)).
Proof.
  exists (fun _ => 23 / 4), (fun i => match i with O => - (3/2) | _ => - (1/2) end). split; [|split].
  - split; [reflexivity|]. intros test Vt. unfold m_mean, integral. simpl. rewrite Vt. field.
  - split; [exact I|]. intros test _. unfold m_mean, integral. simpl. field.
  - reflexivity.
Qed.

Print Assumptions conservative_projection_mass.
Print Assumptions conservative_projection_mean_mass_partial.
Print Assumptions conservative_projection_mean_mass_refuted.
Print Assumptions conservative_projection_constant.
Print Assumptions conservative_projection_constant_refuted.
Print Assumptions conservative_projection_identity.
Print Assumptions reversible_recovery.
Print Assumptions reversible_recovery_project.
Print Assumptions reversible_recovery_not_nested_refuted.
Print Assumptions conservative_recovery_mass.
Print Assumptions conservative_recovery_reversible.
