(** C137: what a wrapped scheme inherits from the scheme in the embedding space. *)
From Coq Require Import String Lra.
From Verif Require Import Base Vec Projection ProjectionProps WrappedStep.
Open Scope R_scope.
Open Scope list_scope.

(** specification: total and square of a function *)
Definition total n w (f : fn) : R := integral n w f.
Definition square n w (f : fn) : R := integral n w (fun i => f i * f i).
Definition positive n (w : fn) : Prop := forall i, (i < n)%nat -> 0 < w i.
(** interpolation into a space leaves the functions of that space as they are *)
Definition exact_on n (Ve : fn -> Prop) (into : fn -> fn -> Prop) : Prop := forall x y, Ve x -> into x y -> same n y x.
(** the scheme only looks at functions at the quadrature points, where they are known *)
Definition extensional n (scheme : fn -> fn -> Prop) : Prop := forall a a' b, same n a' a -> scheme a' b -> exists b', scheme a b' /\ same n b' b.

Lemma total_same n w f g : same n f g -> total n w f = total n w g.
Proof. apply int_ext. Qed.
Lemma square_same n w f g : same n f g -> square n w f = square n w g.
Proof. intros H. apply int_ext. intros i Hi. rewrite (H i Hi). reflexivity. Qed.
Lemma l2_same n w V f g x : same n f g -> l2_project n w V f x -> l2_project n w V g x.
Proof. intros H [Hx Ht]. split; [exact Hx|]. intros t Vt. rewrite (Ht t Vt). apply int_ext. intros i Hi. rewrite (H i Hi). reflexivity. Qed.
Lemma l2_total n w (V : fn -> Prop) f x : V (fun _ => 1) -> l2_project n w V f x -> total n w x = total n w f.
Proof.
  intros V1 [_ H]. specialize (H _ V1). cbv beta in H. unfold total. rewrite (int_ext n w x (fun i => 1 * x i)), H by (intros i _; ring). apply int_ext. intros i _. ring.
Qed.
(** the projection is the nearest function of the space: its square is at most that of the source *)
Lemma l2_square n w V f x : (forall i, (i < n)%nat -> 0 <= w i) -> l2_project n w V f x -> square n w x <= square n w f.
Proof.
  intros W [Vx H]. specialize (H x Vx). unfold square.
  assert (E : integral n w (fun i => (f i - x i) * (f i - x i)) = integral n w (fun i => f i * f i) - integral n w (fun i => x i * x i)).
  { rewrite (int_ext n w _ (fun i => 1 * (1 * (f i * f i) + (-2) * (x i * f i)) + 1 * (x i * x i))) by (intros i _; ring). rewrite !int_lin, <- H. ring. }
  assert (P : 0 <= integral n w (fun i => (f i - x i) * (f i - x i))).
  { unfold integral. clear - W. induction n as [|k IH]; cbn [rsum]; [lra|]. assert (0 <= w k * ((f k - x k) * (f k - x k))) by (apply Rmult_le_pos; [apply W; lia|apply Rle_0_sqr]).
    assert (0 <= rsum k (fun i => w i * ((f i - x i) * (f i - x i)))) by (apply IH; intros; apply W; lia). lra. }
  lra.
Qed.
Lemma l2_of_own n w (V : fn -> Prop) f : V f -> l2_project n w V f f.
Proof. intros H. split; [exact H|reflexivity]. Qed.

Section Embedded.
Variables (n : nat) (w : fn) (V Ve : fn -> Prop) (scheme : fn -> fn -> Prop) (into : fn -> fn -> Prop).
Hypothesis lin : linear_space V.
Hypothesis nested : forall f, V f -> Ve f.
Hypothesis weights : positive n w.
Hypothesis interpolation : exact_on n Ve into.
Hypothesis values_only : extensional n scheme.

(** A wrapped step, seen from outside: a step of the scheme from the field itself, projected *)
Lemma embedded_meaning x_in x_out : V x_in -> embedded_step n w V scheme into x_in x_out -> exists b, scheme x_in b /\ l2_project n w V b x_out.
Proof.
  intros Vx (a & b & Ha & Hs & Hp). destruct (values_only x_in a b (interpolation x_in a (nested _ Vx) Ha) Hs) as (b' & Hb' & E). exists b'. split; [exact Hb'|].
  eapply l2_same; [|exact Hp]. intros i Hi. symmetry. apply E. exact Hi.
Qed.
(** If the scheme leaves the field as it is, so does the wrapped scheme *)
Theorem embedded_unchanged : forall x_in x_out, V x_in -> (forall b, scheme x_in b -> same n b x_in) -> embedded_step n w V scheme into x_in x_out -> same n x_out x_in.
Proof.
  intros x_in x_out Vx Hk H. destruct (embedded_meaning x_in x_out Vx H) as (b & Hb & Hp).
  apply (l2_unique n w V x_in x_out x_in lin weights); [eapply l2_same; [apply Hk; exact Hb|exact Hp]|apply l2_of_own; exact Vx].
Qed.
(** It keeps the total if the scheme does, it does not increase the square if the scheme does not *)
Theorem embedded_conserves : forall x_in x_out, V (fun _ => 1) -> V x_in -> (forall a b, scheme a b -> total n w b = total n w a) -> embedded_step n w V scheme into x_in x_out ->
  total n w x_out = total n w x_in.
Proof. intros x_in x_out V1 Vx Hc H. destruct (embedded_meaning x_in x_out Vx H) as (b & Hb & Hp). rewrite (l2_total n w V b x_out V1 Hp). apply Hc. exact Hb. Qed.
Theorem embedded_stable : forall x_in x_out, V x_in -> (forall a b, scheme a b -> square n w b <= square n w a) -> embedded_step n w V scheme into x_in x_out ->
  square n w x_out <= square n w x_in.
Proof.
  intros x_in x_out Vx Hc H. destruct (embedded_meaning x_in x_out Vx H) as (b & Hb & Hp). eapply Rle_trans; [apply (l2_square n w V b x_out); [intros i Hi; left; apply weights; exact Hi|exact Hp]|apply Hc; exact Hb].
Qed.
(** ... and over any number of steps *)
Theorem embedded_run : forall N (x : nat -> fn), V (fun _ => 1) -> V (x 0%nat) -> (forall k, (k < N)%nat -> embedded_step n w V scheme into (x k) (x (S k))) ->
  ((forall a b, scheme a b -> total n w b = total n w a) -> total n w (x N) = total n w (x 0%nat)) /\
  ((forall a b, scheme a b -> square n w b <= square n w a) -> square n w (x N) <= square n w (x 0%nat)).
Proof.
  intros N x V1 V0 H. assert (HV : forall k, (k <= N)%nat -> V (x k)).
  { intros k Hk. destruct k as [|k]; [exact V0|]. destruct (H k) as (a & b & _ & _ & Hp); [lia|]. exact (proj1 Hp). }
  split; intros Hc.
  - assert (G : forall k, (k <= N)%nat -> total n w (x k) = total n w (x 0%nat)); [|apply G; lia]. induction k as [|k IH]; intros Hk; [reflexivity|]. rewrite <- IH by lia. apply embedded_conserves; [exact V1|apply HV; lia|exact Hc|apply H; lia].
  - assert (G : forall k, (k <= N)%nat -> square n w (x k) <= square n w (x 0%nat)); [|apply G; lia]. induction k as [|k IH]; intros Hk; [apply Rle_refl|]. apply Rle_trans with (square n w (x k)); [apply embedded_stable; [apply HV; lia|exact Hc|apply H; lia]|apply IH; lia].
Qed.
End Embedded.

(** Boundary conditions in the projection: a field that meets them is left as it is with the scheme, but the total is not kept *)
Theorem embedded_bcs_unchanged : forall n w (V Ve : fn -> Prop) (wall : nat -> Prop) bval (scheme into : fn -> fn -> Prop) x_in x_out, linear_space V -> (forall f, V f -> Ve f) -> positive n w -> exact_on n Ve into ->
  V x_in -> (forall i, wall i -> x_in i = bval i) -> (forall a b, same n a x_in -> scheme a b -> same n b x_in) ->
  embedded_step_bcs n w V wall bval scheme into x_in x_out -> same n x_out x_in.
Proof.
  intros n w V Ve wall bval scheme into x_in x_out lin nested W Hi Vx Hb Hk (a & b & Ha & Hs & (Vo & Ho & Ht)).
  pose proof (Hk a b (Hi x_in a (nested _ Vx) Ha) Hs) as Eb. 
  pose proof (lin 1 (-1) x_out x_in Vo Vx) as Vd. assert (Hd : forall i, wall i -> (fun i => 1 * x_out i + -1 * x_in i) i = 0) by (intros i Hw; cbv beta; rewrite (Ho i Hw), (Hb i Hw); ring).
  specialize (Ht _ Vd Hd). cbv beta in Ht.
  assert (Z : integral n w (fun i => (x_out i - x_in i) ^ 2) = 0).
  { rewrite (int_ext n w _ (fun i => 1 * ((1 * x_out i + -1 * x_in i) * x_out i) + (-1) * ((1 * x_out i + -1 * x_in i) * x_in i))) by (intros j _; ring).
    rewrite int_lin, Ht. rewrite (int_ext n w (fun i => (1 * x_out i + -1 * x_in i) * b i) (fun i => (1 * x_out i + -1 * x_in i) * x_in i)) by (intros j Hj; rewrite (Eb j Hj); reflexivity). ring. }
  intros i Hl. assert (Q : (x_out i - x_in i) ^ 2 = 0) by (apply (int_zero_pos n w (fun i => (x_out i - x_in i) ^ 2) W); auto; intros; apply pow2_ge_0). assert (x_out i - x_in i = 0) by (destruct (Req_dec (x_out i - x_in i) 0) as [E|E]; [exact E|exfalso; apply (pow_nonzero _ 2 E); exact Q]). lra.
Qed.
Theorem embedded_bcs_total_refuted : exists n w (V Ve : fn -> Prop) (wall : nat -> Prop) bval (scheme into : fn -> fn -> Prop) x_in x_out, linear_space V /\ (forall f, V f -> Ve f) /\ V (fun _ => 1) /\ exact_on n Ve into /\ V x_in /\
  (forall i, wall i -> x_in i = bval i) /\ (forall a b, scheme a b -> total n w b = total n w a) /\ embedded_step_bcs n w V wall bval scheme into x_in x_out /\ total n w x_out <> total n w x_in.
Proof.
  exists 2%nat, (fun _ => 1), (fun _ => True), (fun _ => True), (fun i => i = 0%nat), (fun _ => 0), (fun a b => b = fun i => match i with O => a 1%nat | _ => a 0%nat end),
    (fun x y => y = x), (fun i => match i with O => 0 | _ => 1 end), (fun _ => 0).
  split; [intros ? ? ? ? ? ?; exact I|]. split; [auto|]. split; [exact I|]. split; [intros x y _ -> i _; reflexivity|]. split; [exact I|]. split; [intros i ->; reflexivity|].
  split; [intros a b ->; unfold total, integral; cbn; ring|]. split.
  - eexists. eexists. split; [reflexivity|]. split; [reflexivity|]. split; [exact I|]. split; [reflexivity|]. intros test _ Ht. unfold integral. cbn. rewrite (Ht 0%nat eq_refl). ring.
  - unfold total, integral. cbn. lra.
Qed.
(** Refuted: that the wrapped scheme keeps values non-negative (or within bounds) if the scheme does: the projection onto linear functions overshoots *)
Theorem embedded_bounds_refuted : exists n w (V Ve : fn -> Prop) (scheme into : fn -> fn -> Prop) x_in x_out, linear_space V /\ (forall f, V f -> Ve f) /\ positive n w /\ exact_on n Ve into /\ V x_in /\
  (forall a b, scheme a b -> (forall i, (i < n)%nat -> 0 <= a i <= 1) -> forall i, (i < n)%nat -> 0 <= b i <= 1) /\ (forall i, (i < n)%nat -> 0 <= x_in i <= 1) /\
  embedded_step n w V scheme into x_in x_out /\ x_out 2%nat < 0.
Proof.
  exists 3%nat, (fun _ => 1), (fun f => f 0%nat + f 2%nat = 2 * f 1%nat), (fun _ => True), (fun a b => b = fun i => match i with O => 1 | _ => 0 end), (fun x y => y = x), (fun _ => 1/3),
    (fun i => match i with O => 5/6 | 1%nat => 1/3 | _ => -1/6 end).
  split; [intros a b f g Hf Hg; nra|]. split; [auto|]. split; [intros i _; lra|]. split; [intros x y _ -> i _; reflexivity|]. split; [lra|].
  split; [intros a b -> _ i _; destruct i as [|[|[|i]]]; cbn; lra|]. split; [intros; lra|]. split; [|lra].
  eexists. eexists. split; [reflexivity|]. split; [reflexivity|]. split; [cbn; lra|]. intros test Ht. unfold integral. cbn. replace (test 2%nat) with (2 * test 1%nat - test 0%nat) by lra. field.
Qed.

(** ** Conservative embedding: the mass of the tracer *)
Theorem embedded_conservative_mass : forall n w (V Ve : fn -> Prop) (scheme : fn -> fn -> Prop) rho_in rho_in_e rho_out_e rho_out x_in x_out, V (fun _ => 1) -> Ve (fun _ => 1) ->
  (forall a b, scheme a b -> integral n w (fun i => rho_out_e i * b i) = integral n w (fun i => rho_in_e i * a i)) -> total n w rho_out = total n w rho_out_e ->
  embedded_step_conservative n w V Ve scheme rho_in rho_in_e rho_out_e rho_out x_in x_out ->
  integral n w (fun i => rho_out i * x_out i) = integral n w (fun i => rho_in i * x_in i).
Proof.
  intros n w V Ve scheme rho_in rho_in_e rho_out_e rho_out x_in x_out V1 Ve1 Hs Hr (a & b & Ha & Hab & Hb).
  rewrite <- (conservative_projection_mass n w Ve rho_in rho_in_e x_in a Ve1 Ha), <- (Hs a b Hab).
  apply (conservative_projection_mean_mass_partial n w V rho_out_e rho_out b x_out V1 Hb). right. exact Hr.
Qed.

(** ** Recovered schemes *)
Section Recovered.
Variables (n : nat) (w : fn) (V Ve : fn -> Prop) (scheme : fn -> fn -> Prop) (rec high : fn -> fn).
Hypothesis lin : linear_space V.
Hypothesis nested : forall f, V f -> Ve f.
Hypothesis weights : positive n w.
(** The same for the recovered scheme with projection, whatever the recovery operator is *)
Theorem recovered_unchanged : forall x_in x_out, V x_in -> (forall a b, scheme a b -> same n b a) ->
  recovered_step n w V scheme rec high (l2_project n w Ve) x_in x_out -> same n x_out x_in.
Proof.
  intros x_in x_out Vx Hk (a & b & Ha & Hs & Hp). eapply reversible_recovery_project; [exact lin|exact nested|exact weights|exact Vx|exact Ha|]. eapply l2_same; [apply Hk; exact Hs|exact Hp].
Qed.
Theorem recovered_conserves : forall x_in x_out, V (fun _ => 1) -> V x_in -> (forall a b, scheme a b -> total n w b = total n w a) ->
  recovered_step n w V scheme rec high (l2_project n w Ve) x_in x_out -> total n w x_out = total n w x_in.
Proof.
  intros x_in x_out V1 Vx Hc (a & b & Ha & Hs & Hp). rewrite (l2_total n w V b x_out V1 Hp), (Hc a b Hs).
  destruct Ha as (c1 & ch & Lo & J & E). subst a. pose proof (l2_total n w V _ c1 V1 Lo) as E1. pose proof (l2_total n w Ve _ ch (nested _ V1) J) as E2. cbv beta in E2.
  unfold total in *. rewrite (int_ext n w (fun i => ch i + high (rec x_in) i) (fun i => 1 * ch i + 1 * high (rec x_in) i)) by (intros j _; ring). rewrite int_lin, E2.
  rewrite (int_ext n w (fun i => x_in i - c1 i) (fun i => 1 * x_in i + (-1) * c1 i)) by (intros j _; ring). rewrite int_lin, E1. ring.
Qed.
End Recovered.
(** With project_low_method = 'interpolate' an unchanged field is unchanged, if interpolation is linear and undoes the injection ... *)
Theorem recovered_interpolate_unchanged : forall n (rec high interp : fn -> fn) (inj scheme : fn -> fn -> Prop) (x_in x_out : fn),
  (forall f g, same n (interp (fun i => f i + g i)) (fun i => interp f i + interp g i)) -> (forall f g, same n f g -> same n (interp f) (interp g)) ->
  (forall x y, inj x y -> interp y = x) -> (forall a b, scheme a b -> same n b a) ->
  recovered_step_interpolate scheme rec high interp inj x_in x_out -> same n x_out x_in.
Proof.
  intros n rec high interp inj scheme x_in x_out Hadd Hext Hinj Hk (a & b & (c1 & ch & -> & J & ->) & Hs & ->). intros i Hi. rewrite (Hext b _ (Hk _ _ Hs) i Hi), (Hadd ch (high (rec x_in)) i Hi).
  rewrite (Hinj _ _ J). ring.
Qed.
(** ... but the total is lost: a field that is constant in a cell is taken back by its value in the middle *)
Theorem recovered_interpolate_total_refuted : exists n w (rec high interp : fn -> fn) (inj scheme : fn -> fn -> Prop) (x_in x_out : fn),
  (forall a b, scheme a b -> total n w b = total n w a) /\ recovered_step_interpolate scheme rec high interp inj x_in x_out /\ total n w x_in = 3 /\ total n w x_out = 6.
Proof.
  exists 3%nat, (fun _ => 1), (fun f => f), (fun f => f), (fun f _ => f 1%nat), (fun x y => y = x), (fun a b => b = fun i => match i with O => a 0%nat - 1/2 | 1%nat => a 1%nat + 1 | _ => a 2%nat - 1/2 end), (fun _ => 1), (fun _ => 2).
  split; [intros a b ->; unfold total, integral; cbn; field|]. split.
  - eexists. eexists. split; [eexists; eexists; split; [reflexivity|]; split; [reflexivity|reflexivity]|]. split; [reflexivity|]. cbn. apply functional_extensionality. intros. ring.
  - unfold total, integral. cbn. split; ring.
Qed.
(** Options: what is not known is refused; the recovery wrapper fails with another error than the one it means to raise (refuted) *)
Theorem wrapper_options_refuted : (forall b, embedded_setup b = Err NotImplementedError <-> b = BInterpolate \/ b = BOther) /\ recovery_setup BOther = Err AttributeError.
Proof. split; [|reflexivity]. intros b. destruct b; cbn; split; intros H; try discriminate; auto; destruct H; discriminate. Qed.

(** ** SUPG *)
(** The parameter: diagonal, in the directions in which the space is continuous, and only there *)
Theorem supg_parameter : forall default dt dim s vals j i, supg_diagonal default dt dim s = Ok vals -> (i < dim)%nat -> (j < dim)%nat ->
  List.length vals = dim /\ (i <> j -> tau_matrix vals j i = 0) /\
  (s = H1 -> tau_matrix vals j j = default * dt) /\ (forall h1, s = Directional h1 -> tau_matrix vals j j = if h1 j then default * dt else 0) /\ (s = HDivSpace -> tau_matrix vals j j = 0).
Proof.
  intros default dt dim s vals j i H Hi Hj.
  assert (N : forall f : nat -> R, nth j (map f (seq 0 dim)) 0 = f j) by (intros f; rewrite (nth_indep _ 0 (f 0%nat)) by (rewrite map_length, seq_length; exact Hj); rewrite map_nth, seq_nth by exact Hj; reflexivity).
  split; [destruct s; cbn in H; try discriminate; injection H as <-; rewrite map_length, seq_length; reflexivity|].
  split; [intros E; unfold tau_matrix; destruct (Nat.eqb_spec i j); [congruence|reflexivity]|]. unfold tau_matrix. rewrite Nat.eqb_refl.
  split; [|split]; [intros ->|intros h1 ->|intros ->]; cbn in H; injection H as <-; apply N.
Qed.
Lemma tau_row vals u grad dim : rsum dim (fun i => rsum dim (fun j => u j * tau_matrix vals j i) * grad i) = rsum dim (fun i => nth i vals 0 * u i * grad i).
Proof.
  apply rsum_ext. intros i Hi. f_equal. unfold tau_matrix. assert (G : forall m, (i < m)%nat -> rsum m (fun j => u j * (if Nat.eqb i j then nth j vals 0 else 0)) = nth i vals 0 * u i).
  { induction m as [|m IH]; intros Hm; [lia|]. cbn [rsum]. destruct (Nat.eqb_spec i m) as [->|E].
    - rewrite rsum_0; [ring|]. intros j Hj. destruct (Nat.eqb_spec m j); [lia|ring].
    - rewrite IH by lia. ring. }
  apply G. exact Hi.
Qed.
(** The test function is the given one plus tau_i u_i d_i of it, and for a continuous space the stabilisation of advection is a dissipation: the part of the test function that is added,
    for the field itself as the test function, times the advection, is default dt (u.grad q)^2 *)
Theorem supg_stabilises : forall default dt dim vals u q grad t, supg_diagonal default dt dim H1 = Ok vals -> supg_test_function dim dim vals u q grad = Ok t ->
  (t - q) * rsum dim (fun i => u i * grad i) = default * dt * (rsum dim (fun i => u i * grad i)) ^ 2.
Proof.
  intros default dt dim vals u q grad t Hv Ht. unfold supg_test_function in Ht. rewrite Nat.eqb_refl in Ht. injection Ht as <-. rewrite tau_row.
  cbn in Hv. injection Hv as <-. rewrite (rsum_ext dim _ (fun i => default * dt * (u i * grad i))).
  - rewrite rsum_scal. ring.
  - intros i Hi. rewrite (nth_indep _ 0 (default * dt)) by (rewrite map_length, seq_length; exact Hi). rewrite (map_nth (fun _ : nat => default * dt) (seq 0 dim) 0%nat). ring.
Qed.
(** Refuted for a space that is continuous in one direction only (the temperature space): the added part can have the opposite sign, so that the scheme is destabilised *)
Theorem supg_directional_refuted : exists vals t, supg_diagonal 1 1 2 (Directional (fun i => Nat.eqb i 1)) = Ok vals /\
  supg_test_function 2 2 vals (fun _ => 1) 0 (fun i => match i with O => -2 | _ => 1 end) = Ok t /\ t * rsum 2 (fun i => 1 * (match i with O => -2 | _ => 1 end)) = -1.
Proof. eexists. eexists. split; [reflexivity|]. split; [reflexivity|]. cbn. ring. Qed.
(** Refuted: that SUPG stabilises fields in HDiv (the wind): the parameter is zero and the test function is unchanged; and on a surface in space (the sphere)
    SUPG cannot be set up without or with a parameter, whose size is checked against the dimension of the surface *)
Theorem supg_hdiv_sphere_refuted : (forall default dt dim vals u q grad, supg_diagonal default dt dim HDivSpace = Ok vals -> supg_test_function dim dim vals u q grad = Ok q) /\
  forall vals u q grad, supg_test_function 3 2 vals u q grad = Err ValueError.
Proof.
  split; [|reflexivity]. intros default dt dim vals u q grad H. unfold supg_test_function. rewrite Nat.eqb_refl, tau_row. cbn in H. injection H as <-.
  rewrite rsum_0; [rewrite Rplus_0_r; reflexivity|]. intros i Hi. assert (E : forall l : list nat, nth i (map (fun _ => 0) l) 0 = 0) by (intros l; clear; revert i; induction l as [|a l IH]; intros [|i]; cbn; auto). rewrite E. ring.
Qed.

(** ** Example: linear functions at three points inside all functions; the scheme adds (1, -2, 1), which has no linear part *)
Example wrapped_example : let V := fun f : fn => f 0%nat + f 2%nat = 2 * f 1%nat in
  linear_space V /\ positive 3 (fun _ => 1) /\ exact_on 3 (fun _ => True) (fun x y => y = x) /\
  embedded_step 3 (fun _ => 1) V (fun a b => b = fun i => match i with 1%nat => a 1%nat - 2 | _ => a i + 1 end) (fun x y => y = x) (fun i => INR i) (fun i => INR i).
Proof.
  cbv zeta. split; [intros a b f g Hf Hg; nra|]. split; [intros i _; lra|]. split; [intros x y _ -> i _; reflexivity|].
  eexists. eexists. split; [reflexivity|]. split; [reflexivity|]. split; [cbn; lra|]. intros test Ht. unfold integral. cbn. replace (test 2%nat) with (2 * test 1%nat - test 0%nat) by lra. ring.
Qed.
