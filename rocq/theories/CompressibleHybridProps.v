(** C128: the hybridised preconditioner of the compressible Euler equations *)
From Coq Require Import String.
From Verif Require Import Base Vec Transport TransportProps CommonForms Equations EquationsProps Thermo ThermoProps Compressible CompressibleProps DiagFormsProps MultilevelFacts CompressibleHybrid.
Open Scope R_scope.

(** ** Specification *)
(** what is used of the spaces: they contain zero, sums and multiples of their elements where needed *)
Definition zero_v : velocity_field := {| u_at := fun _ => {| v_val := fun _ => 0; v_grad := fun _ _ => 0 |}; u_np := fun _ => 0; u_nm := fun _ => 0; u_nb := fun _ => 0 |}.
Definition zero_b : broken := {| bu := zero_v; bz := constant 0; bv := zero_v |}.
Definition zero_t : trace := {| t_int := fun _ => 0; t_ext := fun _ => 0 |}.
(** the normal jumps of broken velocities are traces *)
Definition jumps_are_traces (Vb : broken -> Prop) (Vt : trace -> Prop) : Prop :=
  forall u, Vb u -> Vt {| t_int := fun f => u_np (bu u) f + u_nm (bu u) f; t_ext := u_nb (bu u) |}.
Definition positive_facets (G : geometry) : Prop := (forall f, (f < nfp G)%nat -> 0 < fw G f) /\ (forall b, (b < nbp G)%nat -> 0 < bw G b).

(** ** Proofs *)
Section Props.
Variables (G : geometry) (d : nat) (kvec : nat -> nat -> R) (vertical lateral : nat -> bool) (P : cparams).
Notation DX := (dx G).
Lemma dS_0 g : (forall f, (f < nfp G)%nat -> g f = 0) -> dS_ G g = 0.
Proof. intros H. unfold dS_. apply rsum_0. intros f Hf. rewrite H by auto. ring. Qed.
Lemma ds_0 g : (forall f, (f < nbp G)%nat -> g f = 0) -> ds_ G g = 0.
Proof. intros H. unfold ds_. apply rsum_0. intros f Hf. rewrite H by auto. ring. Qed.
Lemma on_facets_0 dl fi fe : (forall f, (f < nfp G)%nat -> t_int dl f * fi f = 0) -> (forall b, (b < nbp G)%nat -> t_ext dl b * fe b = 0) -> on_facets G dl fi fe = 0.
Proof. intros H1 H2. unfold on_facets. rewrite dS_0, ds_0 by auto. ring. Qed.
Lemma vdot_0l a : vdot d (fun _ => 0) a = 0. Proof. unfold vdot. apply rsum_0. intros. ring. Qed.
Lemma vdot_0r a : vdot d a (fun _ => 0) = 0. Proof. unfold vdot. apply rsum_0. intros. ring. Qed.
Lemma divf_zero_v s k : divf d s zero_v k = 0.
Proof. unfold divf, v_div. cbn. rewrite vdot_0l. rewrite (rsum_0 d) by reflexivity. ring. Qed.

(** hybrid_eqn with a zero test velocity and zero test density *)
Lemma hybrid_constraint o Xr gz mr ra ea xin u rho l0 dl :
  hybrid_eqn G d kvec vertical lateral P o Xr gz mr ra ea xin u rho l0 zero_b (constant 0) dl = on_facets G dl (fun f => u_np (bu u) f + u_nm (bu u) f) (u_nb (bu u)).
Proof.
  unfold hybrid_eqn. cbn [zero_b bu bv constant sv sg sp sm sb zero_v u_at v_val u_np u_nm u_nb].
  rewrite (dx_0 G (fun k => vdot d (fun _ => 0) _)) by (intros; apply vdot_0l).
  rewrite (dx_0 G (fun k => divf d (quotient1 (eliminated_theta _ _ _ _) mr) zero_v k * _)) by (intros; rewrite divf_zero_v; ring).
  rewrite (dx_0 G (fun k => divf d (quotient1 (f_b Xr) mr) zero_v k * _)) by (intros; rewrite divf_zero_v; ring).
  rewrite (dS_0 (fun f => if vertical f then 0 else _)) by (intros f _; destruct (vertical f); ring).
  rewrite (ds_0 (fun f => if lateral f then 0 else _)) by (intros f _; destruct (lateral f); ring).
  rewrite (on_facets_0 l0), (on_facets_0 ra) by (intros; ring).
  rewrite (dx_0 G (fun k => 0 * _ - _)) by (intros; rewrite vdot_0l; ring).
  assert (E1 : match h_mu o with Some mu => h_dt o * DX (fun k => mu k * vdot d (fun _ => 0) (kvec k) * vdot d (v_val (u_at (bu u) k)) (kvec k)) | None => 0 end = 0).
  { destruct (h_mu o); [|reflexivity]. rewrite dx_0; [ring|]. intros. rewrite vdot_0l. ring. }
  assert (E2 : match h_Om o with Some Om => b_u o * DX (fun k => vdot d (fun _ => 0) (cross_omega Om (v_val (u_at (bu u) k)))) | None => 0 end = 0).
  { destruct (h_Om o); [|reflexivity]. rewrite dx_0; [ring|]. intros. apply vdot_0l. }
  rewrite E1, E2. ring.
Qed.
(** The velocity is continuous across the facets and has zero normal component on the boundary *)
Theorem hybrid_velocity_conforming : forall o Xr gz mr ra ea xin (Vb : broken -> Prop) (Vr : sfield -> Prop) (Vt : trace -> Prop) u rho l0,
  positive_facets G -> Vb zero_b -> Vr (constant 0) -> jumps_are_traces Vb Vt ->
  hybrid_solution G d kvec vertical lateral P o Xr gz mr ra ea xin Vb Vr Vt u rho l0 ->
  (forall f, (f < nfp G)%nat -> u_np (bu u) f = - u_nm (bu u) f) /\ (forall b, (b < nbp G)%nat -> u_nb (bu u) b = 0).
Proof.
  intros o Xr gz mr ra ea xin Vb Vr Vt u rho l0 [W1 W2] Z0 Zr J (Hu & _ & _ & H).
  specialize (H zero_b (constant 0) _ Z0 Zr (J u Hu)). rewrite hybrid_constraint in H. unfold on_facets in H. cbn [t_int t_ext] in H.
  assert (N1 : 0 <= dS_ G (fun f => (u_np (bu u) f + u_nm (bu u) f) * (u_np (bu u) f + u_nm (bu u) f))).
  { unfold dS_. apply SspProps.rsum_nonneg. intros f Hf. apply Rmult_le_pos; [left; auto|apply Rle_0_sqr]. }
  assert (N2 : 0 <= ds_ G (fun f => u_nb (bu u) f * u_nb (bu u) f)).
  { unfold ds_. apply SspProps.rsum_nonneg. intros f Hf. apply Rmult_le_pos; [left; auto|apply Rle_0_sqr]. }
  split.
  - intros f Hf. assert (E : dS_ G (fun f => (u_np (bu u) f + u_nm (bu u) f) * (u_np (bu u) f + u_nm (bu u) f)) = 0) by lra.
    unfold dS_ in E. pose proof (rsum_zero_of (nfp G) _ (fun f Hf => Rmult_le_pos _ _ (Rlt_le _ _ (W1 f Hf)) (Rle_0_sqr (u_np (bu u) f + u_nm (bu u) f))) E f Hf) as Z.
    apply Rmult_integral in Z as [Z|Z]; [specialize (W1 f Hf); lra|]. apply Rsqr_0_uniq in Z. lra.
  - intros f Hf. assert (E : ds_ G (fun f => u_nb (bu u) f * u_nb (bu u) f) = 0) by lra.
    unfold ds_ in E. pose proof (rsum_zero_of (nbp G) _ (fun f Hf => Rmult_le_pos _ _ (Rlt_le _ _ (W2 f Hf)) (Rle_0_sqr (u_nb (bu u) f))) E f Hf) as Z.
    apply Rmult_integral in Z as [Z|Z]; [specialize (W2 f Hf); lra|]. apply Rsqr_0_uniq in Z. lra.
Qed.
(** hybrid_eqn with a zero test velocity *)
Lemma hybrid_density o Xr gz mr ra ea xin u rho l0 phi dl :
  hybrid_eqn G d kvec vertical lateral P o Xr gz mr ra ea xin u rho l0 zero_b phi dl =
    DX (fun k => sv phi k * (sv rho k - sv (f_D xin) k) - b_r o * vdot d (sg phi k) (v_val (u_at (bu u) k)) * sv (f_D Xr) k)
    + b_r o * on_facets G ra (fun f => sp phi f * u_np (bu u) f + sm phi f * u_nm (bu u) f) (fun b => sb phi b * u_nb (bu u) b)
    + on_facets G dl (fun f => u_np (bu u) f + u_nm (bu u) f) (u_nb (bu u)).
Proof.
  pose proof (hybrid_constraint o Xr gz mr ra ea xin u rho l0 dl) as H. unfold hybrid_eqn in *. cbn [constant sv sg sp sm sb] in H.
  rewrite (dx_0 G (fun k => 0 * (sv rho k - _) - _)) in H by (intros; rewrite vdot_0l; ring).
  rewrite (on_facets_0 ra) in H by (intros; ring). lra.
Qed.
(** The mass of the density increment is that of the right-hand side, whatever the reference profile *)
Theorem hybrid_mass_conserved : forall o Xr gz mr ra ea xin (Vb : broken -> Prop) (Vr : sfield -> Prop) (Vt : trace -> Prop) u rho l0,
  Vb zero_b -> Vr (constant 1) -> (forall a t, Vt t -> Vt {| t_int := fun f => a * t_int t f; t_ext := fun b => a * t_ext t b |}) ->
  trace_average G Vt (f_D Xr) ra ->
  hybrid_solution G d kvec vertical lateral P o Xr gz mr ra ea xin Vb Vr Vt u rho l0 ->
  dx G (sv rho) = dx G (sv (f_D xin)).
Proof.
  intros o Xr gz mr ra ea xin Vb Vr Vt u rho l0 Z0 Z1 Sc [Ha _] (_ & _ & _ & H).
  specialize (H zero_b (constant 1) _ Z0 Z1 (Sc (- b_r o) ra Ha)). rewrite hybrid_density in H. cbn [constant sv sg sp sm sb] in H.
  unfold on_facets in H. cbn [t_int t_ext] in H.
  rewrite (dx_ext G _ (fun k => sv rho k + -1 * sv (f_D xin) k)) in H by (intros; rewrite vdot_0l; ring). rewrite dx_plus, dx_scale in H.
  rewrite (dS_ext G (fun f => - b_r o * t_int ra f * _) (fun f => - b_r o * (t_int ra f * (1 * u_np (bu u) f + 1 * u_nm (bu u) f)))) in H by (intros; ring).
  rewrite dS_scale in H.
  assert (E : ds_ G (fun b => - b_r o * t_ext ra b * u_nb (bu u) b) = - b_r o * ds_ G (fun b => t_ext ra b * (1 * u_nb (bu u) b))).
  { unfold ds_. rewrite <- rsum_scal. apply rsum_ext. intros. ring. }
  rewrite E in H. lra.
Qed.

(** ** The reconstruction of theta *)
Definition closed_difference (V : sfield -> Prop) : Prop := forall a b, V a -> V b -> V (sadd a (sopp b)).
(** the reference potential temperature varies in the vertical only; k.u is the vertical component *)
Definition vertical_gradient (s gz : sfield) : Prop := forall k i, sg s k i = sv gz k * kvec k i.
Definition vertical_component (u : broken) : Prop := forall k, sv (bz u) k = vdot d (v_val (u_at (bu u) k)) (kvec k).
Lemma vdot_scaled a c v : vdot d v (fun i => c * a i) = c * vdot d v a.
Proof. unfold vdot. rewrite <- rsum_scal. apply rsum_ext. intros. ring. Qed.
Lemma vdot_ext_r v a b : (forall i, a i = b i) -> vdot d v a = vdot d v b.
Proof. intros H. unfold vdot. apply rsum_ext. intros. rewrite H. reflexivity. Qed.
Lemma vdot_ext_l v a b : (forall i, a i = b i) -> vdot d a v = vdot d b v.
Proof. intros H. unfold vdot. apply rsum_ext. intros. rewrite H. reflexivity. Qed.
(** The potential temperature increment solves the theta equation of the linear system when the reference varies in the vertical only *)
Theorem hybrid_theta_equation : forall o Xr gz xin Vth u y, vertical_gradient (f_b Xr) gz -> vertical_component u -> f_u y = bu u ->
  theta_backsub G o gz xin Vth u (f_b y) -> forall gamma, Vth gamma -> linear_theta G d o Xr xin y gamma = 0.
Proof.
  intros o Xr gz xin Vth u y Hg Hz Hu [_ H] gamma Hgam. specialize (H gamma Hgam). unfold linear_theta. rewrite <- dx_scale, <- dx_plus. rewrite <- H.
  apply dx_ext. intros k. rewrite Hz, Hu. rewrite (vdot_ext_r _ (sg (f_b Xr) k) (fun i => sv gz k * kvec k i)) by (intros; apply Hg). rewrite vdot_scaled. ring.
Qed.

(** With the hydrostatic option, what is left out is the acceleration of the vertical velocity and nothing else: for horizontal test functions the equation is
    the same, for vertical ones it has no acceleration *)
Definition hydrostatic_switch (o : hybrid_options) (h : bool) : hybrid_options :=
  {| b_u := b_u o; b_t := b_t o; b_r := b_r o; h_dt := h_dt o; h_hydrostatic := h; h_mu := h_mu o; h_Om := h_Om o |}.
Definition bv_is_vertical (u : broken) : Prop := forall k i, v_val (u_at (bv u) k) i = kvec k i * vdot d (v_val (u_at (bu u) k)) (kvec k).
Lemma hybrid_hydrostatic_difference o Xr gz mr ra ea xin u rho l0 w phi dl : bv_is_vertical u ->
  hybrid_eqn G d kvec vertical lateral P (hydrostatic_switch o true) Xr gz mr ra ea xin u rho l0 w phi dl =
  hybrid_eqn G d kvec vertical lateral P (hydrostatic_switch o false) Xr gz mr ra ea xin u rho l0 w phi dl
  - dx G (fun k => vdot d (v_val (u_at (bu w) k)) (kvec k) * vdot d (v_val (u_at (bu u) k)) (kvec k)).
Proof.
  intros Hv. unfold hybrid_eqn, exner_prime, eliminated_theta. cbn [b_u b_t b_r h_dt h_hydrostatic h_mu h_Om hydrostatic_switch]. cbv zeta.
  match goal with |- dx G ?a - _ + _ + _ - _ + _ + _ + _ + _ + _ + _ = _ => assert (E : dx G a = dx G (fun k => vdot d (v_val (u_at (bu w) k)) (fun i => v_val (u_at (bu u) k) i - v_val (u_at (f_u xin) k) i))
     - dx G (fun k => vdot d (v_val (u_at (bu w) k)) (kvec k) * vdot d (v_val (u_at (bu u) k)) (kvec k))) end.
  { rewrite (dx_ext G _ (fun k => vdot d (v_val (u_at (bu w) k)) (fun i => v_val (u_at (bu u) k) i - v_val (u_at (f_u xin) k) i)
      + -1 * (vdot d (v_val (u_at (bu w) k)) (kvec k) * vdot d (v_val (u_at (bu u) k)) (kvec k)))); [rewrite dx_plus, dx_scale; ring|].
    intros k. set (c := vdot d (v_val (u_at (bu u) k)) (kvec k)). rewrite (Rmult_comm _ c). unfold vdot at 3. rewrite <- !rsum_scal. unfold vdot. rewrite <- rsum_add. apply rsum_ext. intros i _.
    rewrite Hv. fold c. ring. }
  rewrite E. ring.
Qed.
Theorem hybrid_hydrostatic : forall o Xr gz mr ra ea xin u rho l0 w phi dl, bv_is_vertical u -> (forall k, vdot d (kvec k) (kvec k) = 1) ->
  let eqn h := hybrid_eqn G d kvec vertical lateral P (hydrostatic_switch o h) Xr gz mr ra ea xin u rho l0 w phi dl in
  ((forall k, vdot d (v_val (u_at (bu w) k)) (kvec k) = 0) -> eqn true = eqn false) /\
  (forall c, (forall k i, v_val (u_at (bu w) k) i = c k * kvec k i) -> eqn true = eqn false - dx G (fun k => vdot d (v_val (u_at (bu w) k)) (v_val (u_at (bu u) k)))).
Proof.
  intros o Xr gz mr ra ea xin u rho l0 w phi dl Hv K eqn. unfold eqn. rewrite hybrid_hydrostatic_difference by exact Hv. split.
  - intros H. rewrite dx_0; [ring|]. intros k. rewrite H. ring.
  - intros c H. f_equal. apply dx_ext. intros k.
    rewrite (vdot_ext_l _ (v_val (u_at (bu w) k)) (fun i => c k * kvec k i)) by (intros; apply H).
    rewrite (vdot_ext_l _ (v_val (u_at (bu w) k)) (fun i => c k * kvec k i)) by (intros; apply H).
    assert (E : forall v, vdot d (fun i => c k * kvec k i) v = c k * vdot d (kvec k) v) by (intros v; unfold vdot; rewrite <- rsum_scal; apply rsum_ext; intros; ring).
    rewrite !E, K. replace (vdot d (v_val (u_at (bu u) k)) (kvec k)) with (vdot d (kvec k) (v_val (u_at (bu u) k))) by (unfold vdot; apply rsum_ext; intros; ring). ring.
Qed.
(** The fields after the third have no increment, as the linear system requires of fields that are not solver prognostics *)
Theorem hybrid_other_fields : forall o Xr gz mr ra ea xin (Vb : broken -> Prop) (Vr : sfield -> Prop) (Vt : trace -> Prop) (Vth : sfield -> Prop) u_hdiv y,
  hybrid_apply G d kvec vertical lateral P o Xr gz mr ra ea xin Vb Vr Vt Vth u_hdiv y -> forall k, sv (f_q y) k = 0.
Proof. intros o Xr gz mr ra ea xin Vb Vr Vt Vth uh y (u & l0 & _ & _ & _ & _ & H) k. rewrite H. reflexivity. Qed.

(** ** The linearised pressure gradient is the derivative of the pressure gradient *)
Definition perturbed (Xr x : fields) (eps : R) : fields :=
  {| f_u := f_u Xr; f_D := sadd (f_D Xr) (sscale eps (f_D x)); f_b := sadd (f_b Xr) (sscale eps (f_b x)); f_q := f_q Xr |}.
Definition positive_state (X : fields) : Prop :=
  (forall k, (k < ncp G)%nat -> 0 < sv (f_D X) k /\ 0 < sv (f_b X) k) /\
  (forall f, (f < nfp G)%nat -> 0 < sp (f_D X) f /\ 0 < sp (f_b X) f /\ 0 < sm (f_D X) f /\ 0 < sm (f_b X) f).
Lemma d_scal c f l x : derivable_pt_lim f x l -> derivable_pt_lim (fun e => c * f e) x (c * l).
Proof. apply (derivable_pt_lim_scal f c x l). Qed.
Lemma d_plus f g l m x : derivable_pt_lim f x l -> derivable_pt_lim g x m -> derivable_pt_lim (fun e => f e + g e) x (l + m).
Proof. apply (derivable_pt_lim_plus f g x l m). Qed.
Lemma d_opp f l x : derivable_pt_lim f x l -> derivable_pt_lim (fun e => - f e) x (- l).
Proof. apply (derivable_pt_lim_opp f x l). Qed.
Lemma d_rsum n (f : nat -> R -> R) (l : nat -> R) x : (forall j, (j < n)%nat -> derivable_pt_lim (f j) x (l j)) -> derivable_pt_lim (fun e => rsum n (fun j => f j e)) x (rsum n l).
Proof. intros H. apply (derivable_pt_lim_rsum n f (fun j _ => l j)). exact H. Qed.
Lemma line_deriv a b : derivable_pt_lim (fun e => a + e * b) 0 b.
Proof. apply (deriv_ext (fun e => b * e + a)); [intros; ring|]. apply affine_deriv. Qed.
Lemma exner_line (A : admissible P) r r' t t' : 0 < r -> 0 < t ->
  derivable_pt_lim (fun e => exner_pressure P (r + e * r') (t + e * t')) 0 (dexner_drho P r t * r' + dexner_dtheta P r t * t').
Proof.
  intros Hr Ht. destruct A as [K Hp HR HV _]. set (c := R_d P / p_0 P). set (b := kappa P / (1 - kappa P)).
  assert (Hc : 0 < c) by (apply Rdiv_lt_0_compat; lra).
  apply (deriv_ext (fun e => Rpower (c * ((r + e * r') * (t + e * t'))) b)).
  { intros e. unfold exner_pressure, c. f_equal. field. lra. }
  replace (dexner_drho P r t * r' + dexner_dtheta P r t * t') with
    (b * Rpower (c * ((r + 0 * r') * (t + 0 * t'))) b * (r' * (t + 0 * t') + (r + 0 * r') * t') / ((r + 0 * r') * (t + 0 * t'))).
  - apply (deriv_ln_pow c b (fun e => (r + e * r') * (t + e * t'))); [exact Hc| |].
    + rewrite !Rmult_0_l, !Rplus_0_r. apply Rmult_lt_0_compat; lra.
    + apply (derivable_pt_lim_mult (fun e => r + e * r') (fun e => t + e * t')); apply line_deriv.
  - rewrite !Rmult_0_l, !Rplus_0_r. unfold dexner_drho, dexner_dtheta, c. fold b. replace (R_d P / p_0 P * (r * t)) with (r * R_d P * t / p_0 P) by (field; lra). field. lra.
Qed.
Lemma mult_line (f : R -> R) f' f0 a b : f 0 = f0 -> derivable_pt_lim f 0 f' -> derivable_pt_lim (fun e => (a + e * b) * f e) 0 (b * f0 + a * f').
Proof.
  intros <- D. replace (b * f 0 + a * f') with (b * f 0 + (a + 0 * b) * f') by ring.
  apply (derivable_pt_lim_mult (fun e => a + e * b) f); [apply line_deriv|exact D].
Qed.
Theorem linear_pressure_is_derivative : forall Xr x T, admissible P -> positive_state Xr ->
  derivable_pt_lim (fun eps => euler_pressure G d vertical P [] (perturbed Xr x eps) T) 0 (linear_pressure G d vertical P Xr x (f_u T)).
Proof.
  intros Xr x T A [Pc Pf]. set (w := f_u T).
  set (dv := fun (s : sfield) k => divf d s w k).
  assert (E : forall eps, cp P * (- dx G (fun k => (dv (f_b Xr) k + eps * dv (f_b x) k) * exner_pressure P (sv (f_D Xr) k + eps * sv (f_D x) k) (sv (f_b Xr) k + eps * sv (f_b x) k))
     + dS_ G (fun f => if vertical f then (jump_ (f_b Xr) w f + eps * jump_ (f_b x) w f) * (1/2 * (exner_pressure P (sp (f_D Xr) f + eps * sp (f_D x) f) (sp (f_b Xr) f + eps * sp (f_b x) f)
        + exner_pressure P (sm (f_D Xr) f + eps * sm (f_D x) f) (sm (f_b Xr) f + eps * sm (f_b x) f))) else 0))
     = euler_pressure G d vertical P [] (perturbed Xr x eps) T).
  { intros eps. unfold euler_pressure, dS_v. cbv zeta. fold w. f_equal. f_equal; [f_equal|].
    - apply dx_ext. intros k. f_equal. unfold dv, divf, theta_v, quotient1. cbn [sv sg perturbed f_b sadd sscale total_mr fold_right constant].
      rewrite (vdot_ext_r _ (fun i => ((sg (f_b Xr) k i + eps * sg (f_b x) k i) * (1 + 0) - (sv (f_b Xr) k + eps * sv (f_b x) k) * 0) / ((1 + 0) * (1 + 0))) (fun i => sg (f_b Xr) k i + eps * sg (f_b x) k i)) by (intros; field).
      assert (V : vdot d (v_val (u_at w k)) (fun i => sg (f_b Xr) k i + eps * sg (f_b x) k i) = vdot d (v_val (u_at w k)) (sg (f_b Xr) k) + eps * vdot d (v_val (u_at w k)) (sg (f_b x) k)).
      { unfold vdot. rewrite <- rsum_scal, <- rsum_add. apply rsum_ext. intros. ring. }
      rewrite V. field.
    - apply dS_ext. intros f. destruct (vertical f); [|reflexivity]. unfold jump_, avg_, theta_v, quotient1. cbn [sp sm exner_field perturbed f_b f_D sadd sscale total_mr fold_right constant]. field. }
  apply (deriv_ext _ _ 0 _ E). unfold linear_pressure. cbv zeta. cbn [sv].
  replace (- dx G (fun k => divf d (f_b x) w k * sv (exner_field P Xr) k)
     - dx G (fun k => divf d (f_b Xr) w k * (dexner_drho P (sv (f_D Xr) k) (sv (f_b Xr) k) * sv (f_D x) k + dexner_dtheta P (sv (f_D Xr) k) (sv (f_b Xr) k) * sv (f_b x) k)))
    with (- dx G (fun k => dv (f_b x) k * exner_pressure P (sv (f_D Xr) k) (sv (f_b Xr) k)
             + dv (f_b Xr) k * (dexner_drho P (sv (f_D Xr) k) (sv (f_b Xr) k) * sv (f_D x) k + dexner_dtheta P (sv (f_D Xr) k) (sv (f_b Xr) k) * sv (f_b x) k)))
    by (rewrite dx_plus; unfold dv; cbn [exner_field sv]; ring).
  rewrite Rplus_assoc. unfold dS_v. rewrite <- dS_plus.
  apply d_scal. apply d_plus.
  - apply d_opp. unfold dx.
    apply (d_rsum (ncp G)) with (f := fun k e => cw G k * ((dv (f_b Xr) k + e * dv (f_b x) k) * exner_pressure P (sv (f_D Xr) k + e * sv (f_D x) k) (sv (f_b Xr) k + e * sv (f_b x) k))).
    intros k Hk. destruct (Pc k Hk). apply d_scal.
    apply mult_line; [rewrite !Rmult_0_l, !Rplus_0_r; reflexivity|]. apply exner_line; auto.
  - unfold dS_. eapply (d_rsum (nfp G)) with (f := fun f e => fw G f * (if vertical f then (jump_ (f_b Xr) w f + e * jump_ (f_b x) w f) * (1/2 * (exner_pressure P (sp (f_D Xr) f + e * sp (f_D x) f) (sp (f_b Xr) f + e * sp (f_b x) f)
        + exner_pressure P (sm (f_D Xr) f + e * sm (f_D x) f) (sm (f_b Xr) f + e * sm (f_b x) f))) else 0)).
    intros f Hf. destruct (Pf f Hf) as (? & ? & ? & ?). apply d_scal.
    destruct (vertical f).
    + apply mult_line; [rewrite !Rmult_0_l, !Rplus_0_r; reflexivity|]. unfold avg_. cbn [sp sm].
      apply d_scal. apply d_plus; apply exner_line; auto.
    + rewrite Rplus_0_l. apply derivable_pt_lim_const.
Qed.

(** ** Exactness *)
Definition unit_k : Prop := forall k, vdot d (kvec k) (kvec k) = 1.
(** mesh layers orthogonal to k: V(w) has the normal component of w on the horizontal facets and none on the vertical ones *)
Definition flat_layers (w : broken) : Prop :=
  (forall f, if vertical f then u_np (bv w) f = 0 /\ u_nm (bv w) f = 0 else u_np (bv w) f = u_np (bu w) f /\ u_nm (bv w) f = u_nm (bu w) f) /\
  (forall b, if lateral b then u_nb (bv w) b = 0 else u_nb (bv w) b = u_nb (bu w) b).
Definition vertical_part (w : broken) : Prop := forall k i, v_val (u_at (bv w) k) i = sv (bz w) k * kvec k i.
Definition horizontal_part (w : broken) : velocity_field :=
  {| u_at := fun k => {| v_val := fun i => v_val (u_at (bu w) k) i - v_val (u_at (bv w) k) i; v_grad := fun i j => v_grad (u_at (bu w) k) i j - v_grad (u_at (bv w) k) i j |};
     u_np := fun f => u_np (bu w) f - u_np (bv w) f; u_nm := fun f => u_nm (bu w) f - u_nm (bv w) f; u_nb := fun b => u_nb (bu w) b - u_nb (bv w) b |}.
Definition same_field (a b : sfield) : Prop :=
  (forall k, sv a k = sv b k) /\ (forall k i, sg a k i = sg b k i) /\ (forall f, sp a f = sp b f) /\ (forall f, sm a f = sm b f) /\ (forall f, sb a f = sb b f).
Definition unisolvent (V : sfield -> Prop) : Prop := forall a b, V a -> V b -> (forall k, (k < ncp G)%nat -> sv a k = sv b k) -> same_field a b.
Record hybrid_spaces (o : hybrid_options) (Xr : fields) (gz : sfield) (xin : fields) (Vb : broken -> Prop) (Vr : sfield -> Prop) (Vt : trace -> Prop) (Vth : sfield -> Prop) : Prop := {
  hs_zero : Vb zero_b /\ Vr (constant 0) /\ Vt zero_t;
  hs_jumps : jumps_are_traces Vb Vt;
  hs_difference : closed_difference Vth;
  hs_unisolvent : unisolvent Vth;
  hs_vertically_continuous : forall s f, Vth s -> vertical f = false -> sp s f = sm s f;
  hs_elimination : forall u, Vb u -> continuous_u G (bu u) -> Vth (eliminated_theta o gz xin u);  (* theta can be eliminated pointwise *)
  hs_vertical : forall w, Vb w -> flat_layers w /\ vertical_component w /\ vertical_part w;
  hs_divergence_rho : forall phi u, Vr phi -> Vb u -> divergence_theorem G d (product phi (f_D Xr)) (bu u);
  hs_divergence_theta : forall s w, Vth s -> Vb w -> divergence_theorem G d (product s (exner_field P Xr)) (horizontal_part w) }.
(** reference profiles that vary in the vertical only and are continuous *)
Record layered_reference (Xr : fields) (gz gr : sfield) (Vt : trace -> Prop) (ra : trace) : Prop := {
  lr_theta : vertical_gradient (f_b Xr) gz /\ continuous_field (f_b Xr);
  lr_rho : vertical_gradient (f_D Xr) gr /\ continuous_field (f_D Xr);
  lr_average : trace_average G Vt (f_D Xr) ra;
  lr_trace : Vt {| t_int := fun f => t_int ra f - sp (f_D Xr) f; t_ext := fun b => t_ext ra b - sb (f_D Xr) b |} }.
Lemma dS_ext_in g h : (forall f, (f < nfp G)%nat -> g f = h f) -> dS_ G g = dS_ G h.
Proof. intros H. unfold dS_. apply rsum_ext. intros. rewrite H; auto. Qed.
Lemma ds_ext_in g h : (forall f, (f < nbp G)%nat -> g f = h f) -> ds_ G g = ds_ G h.
Proof. intros H. unfold ds_. apply rsum_ext. intros. rewrite H; auto. Qed.
Lemma divf_split s w k : divf d s (bu w) k = divf d s (horizontal_part w) k + divf d s (bv w) k.
Proof.
  unfold divf, v_div, vdot. cbn [horizontal_part u_at v_grad v_val].
  rewrite (rsum_ext d (fun i => v_grad (u_at (bu w) k) i i) (fun i => (v_grad (u_at (bu w) k) i i - v_grad (u_at (bv w) k) i i) + v_grad (u_at (bv w) k) i i)) by (intros; ring).
  rewrite (rsum_ext d (fun i => v_val (u_at (bu w) k) i * sg s k i) (fun i => (v_val (u_at (bu w) k) i - v_val (u_at (bv w) k) i) * sg s k i + v_val (u_at (bv w) k) i * sg s k i)) by (intros; ring).
  rewrite !rsum_add. ring.
Qed.
Lemma horizontal_orthogonal w (g : nat -> R) c k : unit_k -> vertical_component w -> vertical_part w -> (forall i, g i = c * kvec k i) -> vdot d (v_val (u_at (horizontal_part w) k)) g = 0.
Proof.
  intros U Hc Hp Hg. rewrite (vdot_ext_r _ g (fun i => c * kvec k i)) by auto. rewrite vdot_scaled. cbn [horizontal_part u_at v_val].
  unfold vdot. rewrite (rsum_ext d _ (fun i => v_val (u_at (bu w) k) i * kvec k i + - sv (bz w) k * (kvec k i * kvec k i))) by (intros; rewrite Hp; ring).
  rewrite rsum_add, rsum_scal. specialize (U k). specialize (Hc k). unfold vdot in U, Hc. rewrite <- Hc, U. ring.
Qed.
Lemma quotient1_dry a : same_field (quotient1 a (constant 0)) a.
Proof. unfold same_field, quotient1. cbn. repeat split; intros; field. Qed.
Lemma divf_same a b w k : same_field a b -> divf d a w k = divf d b w k.
Proof. intros (H1 & H2 & _). unfold divf. rewrite H1. f_equal. apply vdot_ext_r. auto. Qed.
Lemma trace_of_reference Xr gz gr Vt ra : positive_facets G -> layered_reference Xr gz gr Vt ra ->
  (forall f, (f < nfp G)%nat -> t_int ra f = sp (f_D Xr) f) /\ (forall b, (b < nbp G)%nat -> t_ext ra b = sb (f_D Xr) b).
Proof.
  intros [W1 W2] [_ [_ Hc] [_ Ha] Ht]. specialize (Ha _ Ht). unfold on_facets in Ha. cbn [t_int t_ext] in Ha.
  assert (E : dS_ G (fun f => (t_int ra f - sp (f_D Xr) f) * (t_int ra f - sp (f_D Xr) f)) + ds_ G (fun b => (t_ext ra b - sb (f_D Xr) b) * (t_ext ra b - sb (f_D Xr) b)) = 0).
  { rewrite (dS_ext G (fun f => (t_int ra f - sp (f_D Xr) f) * (t_int ra f - sp (f_D Xr) f))
      (fun f => (t_int ra f - sp (f_D Xr) f) * t_int ra f + -1 * ((t_int ra f - sp (f_D Xr) f) * avg_ (f_D Xr) f))) by (intros f; unfold avg_; rewrite <- (Hc f); field).
    rewrite dS_plus, dS_scale.
    assert (D : ds_ G (fun b => (t_ext ra b - sb (f_D Xr) b) * (t_ext ra b - sb (f_D Xr) b)) = ds_ G (fun b => (t_ext ra b - sb (f_D Xr) b) * t_ext ra b) - ds_ G (fun b => (t_ext ra b - sb (f_D Xr) b) * sb (f_D Xr) b)).
    { unfold ds_. set (b1 := rsum _ (fun k => bw G k * (_ * sb _ k))). replace (- b1) with (-1 * b1) by ring. unfold Rminus. replace (- b1) with (-1 * b1) by ring. unfold b1. rewrite <- rsum_scal, <- rsum_add. apply rsum_ext. intros. ring. }
    rewrite D. lra. }
  assert (N1 : 0 <= dS_ G (fun f => (t_int ra f - sp (f_D Xr) f) * (t_int ra f - sp (f_D Xr) f))).
  { unfold dS_. apply SspProps.rsum_nonneg. intros f Hf. apply Rmult_le_pos; [left; auto|apply Rle_0_sqr]. }
  assert (N2 : 0 <= ds_ G (fun b => (t_ext ra b - sb (f_D Xr) b) * (t_ext ra b - sb (f_D Xr) b))).
  { unfold ds_. apply SspProps.rsum_nonneg. intros f Hf. apply Rmult_le_pos; [left; auto|apply Rle_0_sqr]. }
  split; intros f Hf.
  - assert (E1 : dS_ G (fun f => (t_int ra f - sp (f_D Xr) f) * (t_int ra f - sp (f_D Xr) f)) = 0) by lra. unfold dS_ in E1.
    pose proof (rsum_zero_of (nfp G) _ (fun f Hf => Rmult_le_pos _ _ (Rlt_le _ _ (W1 f Hf)) (Rle_0_sqr (t_int ra f - sp (f_D Xr) f))) E1 f Hf) as Z.
    apply Rmult_integral in Z as [Z|Z]; [specialize (W1 f Hf); lra|]. apply Rsqr_0_uniq in Z. lra.
  - assert (E1 : ds_ G (fun b => (t_ext ra b - sb (f_D Xr) b) * (t_ext ra b - sb (f_D Xr) b)) = 0) by lra. unfold ds_ in E1.
    pose proof (rsum_zero_of (nbp G) _ (fun f Hf => Rmult_le_pos _ _ (Rlt_le _ _ (W2 f Hf)) (Rle_0_sqr (t_ext ra f - sb (f_D Xr) f))) E1 f Hf) as Z.
    apply Rmult_integral in Z as [Z|Z]; [specialize (W2 f Hf); lra|]. apply Rsqr_0_uniq in Z. lra.
Qed.
(** the hybridised system, tested with a continuous velocity *)
Lemma hybrid_momentum o Xr gz ra ea xin u rho l0 w : h_hydrostatic o = false -> continuous_u G (bu w) -> flat_layers w -> continuous_field (f_b Xr) ->
  (forall f, vertical f = false -> sp (eliminated_theta o gz xin u) f = sm (eliminated_theta o gz xin u) f) ->
  hybrid_eqn G d kvec vertical lateral P o Xr gz (constant 0) ra ea xin u rho l0 w (constant 0) zero_t =
    DX (fun k => vdot d (v_val (u_at (bu w) k)) (fun i => v_val (u_at (bu u) k) i - v_val (u_at (f_u xin) k) i))
    - b_u o * cp P * DX (fun k => divf d (eliminated_theta o gz xin u) (bv w) k * sv (exner_field P Xr) k)
    - b_u o * cp P * DX (fun k => divf d (f_b Xr) (bu w) k * exner_prime P o Xr gz xin u rho k)
    + match h_mu o with Some mu => h_dt o * DX (fun k => mu k * vdot d (v_val (u_at (bu w) k)) (kvec k) * vdot d (v_val (u_at (bu u) k)) (kvec k)) | None => 0 end
    + match h_Om o with Some Om => b_u o * DX (fun k => vdot d (v_val (u_at (bu w) k)) (cross_omega Om (v_val (u_at (bu u) k)))) | None => 0 end.
Proof.
  intros Hh [W1 W2] [F1 F2] Hc Ht. unfold hybrid_eqn. rewrite Hh. cbn [constant sv sg sp sm sb zero_t].
  set (th := eliminated_theta o gz xin u) in *. destruct (quotient1_dry th) as (q1 & q2 & q3 & q4 & q5). destruct (quotient1_dry (f_b Xr)) as (r1 & r2 & r3 & r4 & r5).
  fold (constant 0).
  rewrite (dS_0 (fun f => if vertical f then 0 else _)).
  2:{ intros f Hf. specialize (F1 f). destruct (vertical f) eqn:V; [reflexivity|]. destruct F1 as [-> ->]. rewrite q3, q4, (Ht f V). specialize (W1 f Hf).
      replace (sm th f * u_np (bu w) f + sm th f * u_nm (bu w) f) with (sm th f * (u_np (bu w) f + u_nm (bu w) f)) by ring. rewrite W1. ring. }
  rewrite (ds_0 (fun b => if lateral b then 0 else _)).
  2:{ intros b Hb. specialize (F2 b). destruct (lateral b); [reflexivity|]. rewrite F2, W2 by auto. ring. }
  rewrite (on_facets_0 l0).
  2:{ intros f Hf. rewrite r3, r4, (Hc f). specialize (W1 f Hf). replace (sm (f_b Xr) f * u_np (bu w) f + sm (f_b Xr) f * u_nm (bu w) f) with (sm (f_b Xr) f * (u_np (bu w) f + u_nm (bu w) f)) by ring. rewrite W1. ring. }
  2:{ intros b Hb. rewrite W2 by auto. ring. }
  rewrite (on_facets_0 ra) by (intros; ring). rewrite (on_facets_0 zero_t) by (intros; cbn; ring).
  rewrite (dx_0 G (fun k => 0 * (sv rho k - _) - _)) by (intros; rewrite vdot_0l; ring).
  rewrite (dx_ext G (fun k => divf d (quotient1 th (constant 0)) (bv w) k * sv (exnerbar P Xr) k) (fun k => divf d th (bv w) k * sv (exner_field P Xr) k)).
  2:{ intros k. rewrite (divf_same _ th) by apply quotient1_dry. reflexivity. }
  rewrite (dx_ext G (fun k => divf d (quotient1 (f_b Xr) (constant 0)) (bu w) k * _) (fun k => divf d (f_b Xr) (bu w) k * exner_prime P o Xr gz xin u rho k)).
  2:{ intros k. rewrite (divf_same _ (f_b Xr)) by apply quotient1_dry. reflexivity. }
  ring.
Qed.
(** Dry air, not hydrostatic, flat layers, continuous reference profiles that vary in the vertical only: the preconditioner solves the linear system *)
Theorem hybrid_exact : forall o Xr gz gr ra ea xin Vb Vr Vt Vth u_hdiv y, unit_k -> positive_weights G -> positive_facets G -> h_hydrostatic o = false ->
  hybrid_spaces o Xr gz xin Vb Vr Vt Vth -> layered_reference Xr gz gr Vt ra ->
  hybrid_apply G d kvec vertical lateral P o Xr gz (constant 0) ra ea xin Vb Vr Vt Vth u_hdiv y ->
  continuous_u G (f_u y) /\
  (forall w, Vb w -> continuous_u G (bu w) -> linear_momentum G d kvec vertical P o Xr xin y (bu w) = 0) /\
  (forall phi, Vr phi -> linear_density G d o Xr xin y phi = 0) /\
  (forall gamma, Vth gamma -> linear_theta G d o Xr xin y gamma = 0).
Proof.
  intros o Xr gz gr ra ea xin Vb Vr Vt Vth uh y U PW PF Hh S L (u & l0 & Hs & Hrec & Hy & Hth & _).
  destruct S as [(Z1 & Z2 & Z3) J Df Un Vc El Ve Dr Dt]. 
  destruct (hybrid_velocity_conforming o Xr gz (constant 0) ra ea xin Vb Vr Vt u (f_D y) l0 PF Z1 Z2 J Hs) as [C1 C2].
  assert (Cu : continuous_u G (bu u)). { split; [intros f Hf; rewrite (C1 f Hf); ring|exact C2]. }
  specialize (Hrec Cu). subst uh. rewrite Hy. split; [exact Cu|].
  destruct Hs as (Uu & Ur & Ul & Hs). destruct (Ve u Uu) as (Fu & Cu1 & Cu2).
  pose proof (trace_of_reference _ _ _ _ _ PF L) as [Ra1 Ra2]. destruct L as [[Lt1 Lt2] [Lr1 Lr2] _ _].
  (* the reconstructed theta is the eliminated one *)
  pose proof (El u Uu Cu) as Ve1. destruct Hth as [Hy1 Hy2].
  assert (Sth : same_field (f_b y) (eliminated_theta o gz xin u)).
  { apply Un; auto. pose proof (Hy2 _ (Df _ _ Hy1 Ve1)) as Z. intros k Hk.
    assert (Z' : dx G (fun k => (sv (f_b y) k - sv (eliminated_theta o gz xin u) k) * (sv (f_b y) k - sv (eliminated_theta o gz xin u) k)) = 0).
    { rewrite <- Z. apply dx_ext. intros j. unfold eliminated_theta. cbn [sadd sopp sscale product sv]. ring. }
    pose proof (dx_zero_of G _ PW (fun j _ => Rle_0_sqr (sv (f_b y) j - sv (eliminated_theta o gz xin u) j)) Z' k Hk) as E. apply Rsqr_0_uniq in E. lra. }
  split; [|split].
  - intros w Uw Cw. destruct (Ve w Uw) as (Fw & Cw1 & Cw2).
    pose proof (Hs w (constant 0) zero_t Uw Z2 Z3) as H.
    rewrite hybrid_momentum in H; auto. 
    set (th := eliminated_theta o gz xin u) in *. unfold linear_momentum. rewrite Hy. etransitivity; [|exact H].
    assert (Pr : linear_pressure G d vertical P Xr y (bu w) = - cp P * DX (fun k => divf d th (bv w) k * sv (exner_field P Xr) k) - cp P * DX (fun k => divf d (f_b Xr) (bu w) k * exner_prime P o Xr gz xin u (f_D y) k)).
    { unfold linear_pressure. cbv zeta. cbn [sv].
      rewrite (dx_ext G (fun k => divf d (f_b y) (bu w) k * _) (fun k => divf d th (horizontal_part w) k * sv (exner_field P Xr) k + divf d th (bv w) k * sv (exner_field P Xr) k)).
      2:{ intros k. rewrite (divf_same _ th) by auto. rewrite divf_split. ring. }
      rewrite dx_plus.
      assert (Ds : DX (fun k => divf d th (horizontal_part w) k * sv (exner_field P Xr) k) = dS_v G vertical (fun f => jump_ (f_b y) (bu w) f * avg_ (exner_field P Xr) f)).
      { pose proof (Dt th w Ve1 Uw) as D. unfold divergence_theorem in D. cbn [product sv sg sp sm sb] in D.
        rewrite (dx_ext G _ (fun k => divf d th (horizontal_part w) k * sv (exner_field P Xr) k)) in D.
        2:{ intros k. unfold divf.
            assert (O : vdot d (v_val (u_at (horizontal_part w) k)) (sg (exner_field P Xr) k) = 0).
            { apply (horizontal_orthogonal w _ (dexner_drho P (sv (f_D Xr) k) (sv (f_b Xr) k) * sv gr k + dexner_dtheta P (sv (f_D Xr) k) (sv (f_b Xr) k) * sv gz k) k U Cw1 Cw2).
              intros i. cbn [exner_field sg]. rewrite (Lr1 k i), (Lt1 k i). ring. }
            unfold vdot in *. rewrite (rsum_ext d _ (fun i => sv th k * (v_val (u_at (horizontal_part w) k) i * sg (exner_field P Xr) k i) + sv (exner_field P Xr) k * (v_val (u_at (horizontal_part w) k) i * sg th k i))) by (intros; ring).
            rewrite rsum_add, !rsum_scal, O. ring. }
        rewrite D. destruct Fw as [F1 F2]. destruct Cw as [W1 W2].
        rewrite (ds_0 (fun b => _ * _ * u_nb _ b)).
        2:{ intros b Hb. cbn [horizontal_part u_nb]. specialize (F2 b). rewrite (W2 b Hb). destruct (lateral b); [rewrite F2; ring|rewrite F2, (W2 b Hb); ring]. }
        rewrite Rplus_0_r. unfold dS_v. apply dS_ext. intros f. cbn [horizontal_part u_np u_nm]. specialize (F1 f).
        destruct (vertical f).
        - destruct F1 as [-> ->]. destruct Sth as (_ & _ & s3 & s4 & _). unfold jump_, avg_. rewrite s3, s4. fold th. cbn [exner_field sp sm]. rewrite <- (Lr2 f), <- (Lt2 f). field.
        - destruct F1 as [-> ->]. ring. }
      rewrite Ds.
      assert (J2 : dS_v G vertical (fun f => jump_ (f_b Xr) (bu w) f * avg_ {| sv := fun k => dexner_drho P (sv (f_D Xr) k) (sv (f_b Xr) k) * sv (f_D y) k + dexner_dtheta P (sv (f_D Xr) k) (sv (f_b Xr) k) * sv (f_b y) k;
                sg := fun _ _ => 0; sp := fun f => dexner_drho P (sp (f_D Xr) f) (sp (f_b Xr) f) * sp (f_D y) f + dexner_dtheta P (sp (f_D Xr) f) (sp (f_b Xr) f) * sp (f_b y) f;
                sm := fun f => dexner_drho P (sm (f_D Xr) f) (sm (f_b Xr) f) * sm (f_D y) f + dexner_dtheta P (sm (f_D Xr) f) (sm (f_b Xr) f) * sm (f_b y) f; sb := fun _ => 0 |} f) = 0).
      { unfold dS_v. apply dS_0. intros f Hf. destruct (vertical f); [|reflexivity]. unfold jump_. rewrite (Lt2 f). destruct Cw as [W1 _]. specialize (W1 f Hf).
        replace (sm (f_b Xr) f * u_np (bu w) f + sm (f_b Xr) f * u_nm (bu w) f) with (sm (f_b Xr) f * (u_np (bu w) f + u_nm (bu w) f)) by ring. rewrite W1. ring. }
      rewrite J2.
      rewrite (dx_ext G (fun k => divf d (f_b Xr) (bu w) k * _) (fun k => divf d (f_b Xr) (bu w) k * exner_prime P o Xr gz xin u (f_D y) k)).
      2:{ intros k. f_equal. unfold exner_prime. fold th. destruct Sth as (s1 & _). rewrite s1. fold th. ring. }
      ring. }
    rewrite Pr. ring.
  - intros phi Up. pose proof (Hs zero_b phi zero_t Z1 Up Z3) as H. rewrite hybrid_density in H.
    rewrite (on_facets_0 zero_t) in H by (intros; cbn; ring).
    pose proof (Dr phi u Up Uu) as D. unfold divergence_theorem in D. cbn [product sv sg sp sm sb] in D.
    unfold linear_density. rewrite Hy.
    assert (E1 : DX (fun k => sv phi k * divf d (f_D Xr) (bu u) k) = - DX (fun k => vdot d (sg phi k) (v_val (u_at (bu u) k)) * sv (f_D Xr) k) +
                 on_facets G ra (fun f => sp phi f * u_np (bu u) f + sm phi f * u_nm (bu u) f) (fun b => sb phi b * u_nb (bu u) b)).
    { unfold on_facets. rewrite (dS_ext_in (fun f => t_int ra f * _) (fun f => sp phi f * sp (f_D Xr) f * u_np (bu u) f + sm phi f * sm (f_D Xr) f * u_nm (bu u) f)).
      2:{ intros f Hf. rewrite (Ra1 f Hf), <- (Lr2 f). ring. }
      rewrite (ds_ext_in (fun b => t_ext ra b * _) (fun b => sb phi b * sb (f_D Xr) b * u_nb (bu u) b)) by (intros b Hb; rewrite (Ra2 b Hb); ring).
      rewrite <- D.
      rewrite (dx_ext G (fun k => sv phi k * sv (f_D Xr) k * _ + _) (fun k => sv phi k * divf d (f_D Xr) (bu u) k + vdot d (sg phi k) (v_val (u_at (bu u) k)) * sv (f_D Xr) k)); [rewrite dx_plus; ring|].
      intros k. unfold divf, vdot. rewrite (rsum_ext d _ (fun i => sv phi k * (v_val (u_at (bu u) k) i * sg (f_D Xr) k i) + sv (f_D Xr) k * (sg phi k i * v_val (u_at (bu u) k) i))) by (intros; ring).
      rewrite rsum_add, !rsum_scal. ring. }
    rewrite E1. etransitivity; [|exact H].
    rewrite (dx_ext G (fun k => sv phi k * (sv (f_D y) k - sv (f_D xin) k) - _) (fun k => sv phi k * (sv (f_D y) k - sv (f_D xin) k) + - b_r o * (vdot d (sg phi k) (v_val (u_at (bu u) k)) * sv (f_D Xr) k))) by (intros; ring).
    rewrite dx_plus, dx_scale. ring.
  - intros gamma Hg. apply (hybrid_theta_equation o Xr gz xin Vth u y); auto. split; auto.
Qed.
End Props.

(** ** A column of two cells, one point per cell: velocities linear in each cell *)
Definition cell_velocity (a0 a1 a2 a3 : R) : velocity_field :=
  {| u_at := fun k => {| v_val := fun _ => match k with 0%nat => (a0 + a1) / 2 | _ => (a2 + a3) / 2 end; v_grad := fun _ _ => match k with 0%nat => a1 - a0 | _ => a3 - a2 end |};
     u_np := fun _ => a1; u_nm := fun _ => - a2; u_nb := fun b => match b with 0%nat => - a0 | _ => a3 end |}.
Definition col_broken (a0 a1 a2 a3 : R) : broken :=
  {| bu := cell_velocity a0 a1 a2 a3;
     bz := {| sv := fun k => match k with 0%nat => (a0 + a1) / 2 | _ => (a2 + a3) / 2 end; sg := fun k _ => match k with 0%nat => a1 - a0 | _ => a3 - a2 end;
              sp := fun _ => a1; sm := fun _ => a2; sb := fun b => match b with 0%nat => a0 | _ => a3 end |};
     bv := cell_velocity a0 a1 a2 a3 |}.
Definition per_cell (r0 r1 : R) : sfield :=
  {| sv := fun k => match k with 0%nat => r0 | _ => r1 end; sg := fun _ _ => 0; sp := fun _ => r0; sm := fun _ => r1; sb := fun b => match b with 0%nat => r0 | _ => r1 end |}.
Definition linear_z (a b : R) : sfield :=
  {| sv := fun k => match k with 0%nat => a + b / 2 | _ => a + 3 * b / 2 end; sg := fun _ _ => b; sp := fun _ => a + b; sm := fun _ => a + b; sb := fun f => match f with 0%nat => a | _ => a + 2 * b end |}.
Definition col_trace (a b c : R) : trace := {| t_int := fun _ => a; t_ext := fun f => match f with 0%nat => b | _ => c end |}.
Definition CVb (u : broken) : Prop := u = zero_b \/ exists a0 a1 a2 a3, u = col_broken a0 a1 a2 a3.
Definition CVr (s : sfield) : Prop := s = constant 0 \/ exists r0 r1, s = per_cell r0 r1.
Definition CVt (t : trace) : Prop := exists a b c, (forall f, t_int t f = a) /\ (forall f, t_ext t f = match f with 0%nat => b | _ => c end).
Definition CVth (s : sfield) : Prop := exists a b, same_field s (linear_z a b).
Definition upward : nat -> nat -> R := fun _ _ => 1.
Definition none (_ : nat) : bool := false.
Definition unit_params : cparams :=
  {| cp := 1; R_d := 1; kappa := 2/7; p_0 := 1; cv := cv default_params; c_pl := c_pl default_params; c_pv := c_pv default_params; c_vv := c_vv default_params;
     R_v := R_v default_params; L_v0 := L_v0 default_params; T_0 := T_0 default_params; w_sat2 := w_sat2 default_params; w_sat3 := w_sat3 default_params; w_sat4 := w_sat4 default_params |}.

Definition col_ref : fields := {| f_u := zero_v; f_D := constant 1; f_b := constant 1; f_q := constant 0 |}.
Definition col_options : hybrid_options := {| b_u := 1; b_t := 1; b_r := 1; h_dt := 1; h_hydrostatic := false; h_mu := None; h_Om := None |}.
(** right-hand side: a density difference between the cells and a uniform change of theta *)
Definition col_rhs : fields := {| f_u := zero_v; f_D := per_cell 1 (-1); f_b := linear_z 1 0; f_q := constant 0 |}.
Definition col_solution : broken := col_broken 0 (8/13) (8/13) 0.
Definition col_y : fields := {| f_u := bu col_solution; f_D := per_cell (5/13) (-5/13); f_b := linear_z 1 0; f_q := constant 0 |}.
Lemma unit_power x : Rpower (1 * 1 * 1 / 1) x = 1.
Proof. replace (1 * 1 * 1 / 1) with 1 by field. unfold Rpower. rewrite ln_1, Rmult_0_r. apply exp_0. Qed.
Ltac col_compute := unfold hybrid_eqn, on_facets, eliminated_theta, exner_prime, exnerbar, exner_field, exner_pressure, dexner_drho, dexner_dtheta, divf, quotient1, dx, dS_, ds_, vdot, v_div; cbn; rewrite ?unit_power.
Lemma col_hybrid : hybrid_solution column 1 upward none none unit_params col_options col_ref (constant 0) (constant 0) (col_trace 1 1 1) (col_trace 1 1 1) col_rhs CVb CVr CVt
  col_solution (per_cell (5/13) (-5/13)) (col_trace (2/5) (2/5 + 4/13) (2/5 - 4/13)).
Proof.
  split; [right; unfold col_solution; eauto|]. split; [right; eauto|]. split; [exists (2/5), (2/5 + 4/13), (2/5 - 4/13); split; reflexivity|].
  intros w phi dl Hw Hp (t0 & t1 & t2 & T1 & T2).
  destruct Hw as [-> | (w0 & w1 & w2 & w3 & ->)]; destruct Hp as [-> | (p0 & p1 & ->)]; col_compute; rewrite ?T1, ?T2; field.
Qed.
Lemma col_apply : hybrid_apply column 1 upward none none unit_params col_options col_ref (constant 0) (constant 0) (col_trace 1 1 1) (col_trace 1 1 1) col_rhs CVb CVr CVt CVth col_solution col_y.
Proof.
  exists col_solution, (col_trace (2/5) (2/5 + 4/13) (2/5 - 4/13)). split; [exact col_hybrid|]. split; [auto|]. split; [reflexivity|]. split; [|reflexivity].
  split; [exists 1, 0; unfold same_field; cbn; auto|]. intros gamma _. apply dx_0. intros k. unfold col_y, col_rhs, col_options. cbn. destruct k; field.
Qed.
Lemma col_spaces : hybrid_spaces column 1 upward none none unit_params col_options col_ref (constant 0) col_rhs CVb CVr CVt CVth.
Proof.
  split.
  - split; [left; reflexivity|]. split; [left; reflexivity|]. exists 0, 0, 0. split; [reflexivity|]. intros [|f]; reflexivity.
  - intros u [-> | (a0 & a1 & a2 & a3 & ->)]; [exists 0, 0, 0; split; intros f; cbn; [ring|destruct f; reflexivity]|]. exists (a1 + - a2), (- a0), a3. split; reflexivity.
  - intros a b (a0 & a1 & (A1 & A2 & A3 & A4 & A5)) (b0 & b1 & (B1 & B2 & B3 & B4 & B5)). exists (a0 - b0), (a1 - b1). unfold same_field. cbn [sadd sopp sv sg sp sm sb linear_z] in *.
    split; [|split; [|split; [|split]]]; intros.
    + rewrite A1, B1. destruct k; field. + rewrite A2, B2. ring. + rewrite A3, B3. ring. + rewrite A4, B4. ring. + rewrite A5, B5. destruct f; ring.
  - intros a b (a0 & a1 & (A1 & A2 & A3 & A4 & A5)) (b0 & b1 & (B1 & B2 & B3 & B4 & B5)) H. cbn [sv sg sp sm sb linear_z] in *.
    pose proof (H 0%nat ltac:(cbn; lia)) as H0. pose proof (H 1%nat ltac:(cbn; lia)) as H1. rewrite A1, B1 in H0, H1. cbn in H0, H1.
    assert (a1 = b1) by lra. assert (a0 = b0) by lra. subst. unfold same_field. split; [|split; [|split; [|split]]]; intros; rewrite ?A1, ?B1, ?A2, ?B2, ?A3, ?B3, ?A4, ?B4, ?A5, ?B5; reflexivity.
  - intros s f (a & b & (_ & _ & S1 & S2 & _)) _. rewrite S1, S2. reflexivity.
  - intros u _ _. exists 1, 0. unfold same_field, eliminated_theta. cbn. split; [|split; [|split; [|split]]]; intros; try destruct k; try destruct f; try field.
  - intros w [-> | (a0 & a1 & a2 & a3 & ->)]; (split; [split; intros f; cbn; auto|]; split; [intros k; unfold vdot, upward; cbn; ring|intros k i; unfold upward; cbn; ring]).
  - intros phi u [-> | (p0 & p1 & ->)] [-> | (a0 & a1 & a2 & a3 & ->)]; unfold divergence_theorem, dx, dS_, ds_, vdot, v_div; cbn; field.
  - intros s w _ [-> | (a0 & a1 & a2 & a3 & ->)]; unfold divergence_theorem, dx, dS_, ds_, vdot, v_div; cbn; ring.
Qed.
(** the hypotheses of hybrid_exact are met, and the increment is not zero *)
Example col_exact : (forall phi, CVr phi -> linear_density column 1 col_options col_ref col_rhs col_y phi = 0) /\
  (forall w, CVb w -> continuous_u column (bu w) -> linear_momentum column 1 upward none unit_params col_options col_ref col_rhs col_y (bu w) = 0) /\ u_np (f_u col_y) 0 = 8/13.
Proof.
  destruct (hybrid_exact column 1 upward none none unit_params col_options col_ref (constant 0) (constant 0) (col_trace 1 1 1) (col_trace 1 1 1) col_rhs CVb CVr CVt CVth col_solution col_y) as (_ & H1 & H2 & _).
  - intros k. unfold vdot, upward. cbn. ring.
  - intros k Hk. cbn. lra.
  - split; intros; cbn; lra.
  - reflexivity.
  - exact col_spaces.
  - split.
    + split; [intros k i; cbn; ring|intros f; reflexivity].
    + split; [intros k i; cbn; ring|intros f; reflexivity].
    + split; [exists 1, 1, 1; split; reflexivity|]. intros dl _. unfold on_facets, avg_. cbn. unfold dS_, ds_. cbn. field.
    + exists 0, 0, 0. split; intros f; cbn; [ring|destruct f; ring].
  - exact col_apply.
  - split; [exact H2|]. split; [exact H1|]. reflexivity.
Qed.

(** A reference density with a jump between the cells (the density space is discontinuous): the mass flux uses the average on the facet, the linear system
    the density of each cell, so the increment does not solve the density equation of the linear system *)
Definition jump_ref : fields := {| f_u := zero_v; f_D := per_cell 1 2; f_b := constant 1; f_q := constant 0 |}.
Theorem hybrid_density_jump_refuted : exists ra ea xin u_hdiv y phi, trace_average column CVt (f_D jump_ref) ra /\ trace_average column CVt (exner_field unit_params jump_ref) ea /\
  hybrid_apply column 1 upward none none unit_params col_options jump_ref (constant 0) (constant 0) ra ea xin CVb CVr CVt CVth u_hdiv y /\
  CVr phi /\ linear_density column 1 col_options jump_ref xin y phi <> 0.
Proof.
  set (ea := col_trace (avg_ (exner_field unit_params jump_ref) 0) (sb (exner_field unit_params jump_ref) 0) (sb (exner_field unit_params jump_ref) 1)).
  set (u := col_broken 0 1 1 0).
  exists (col_trace (3/2) 1 2), ea, {| f_u := bu u; f_D := per_cell (3/2) (-3/2); f_b := linear_z 0 0; f_q := constant 0 |}, u,
    {| f_u := bu u; f_D := per_cell 0 0; f_b := linear_z 0 0; f_q := constant 0 |}, (per_cell 1 0).
  split; [|split; [|split; [|split]]].
  - split; [exists (3/2), 1, 2; split; reflexivity|]. intros dl _. unfold on_facets, avg_, dS_, ds_. cbn. field.
  - split; [unfold ea; eexists _, _, _; split; intros; cbn [col_trace t_int t_ext]; reflexivity|]. intros dl _. unfold on_facets, dS_, ds_, ea. cbn [column nfp nbp fw bw rsum col_trace t_int t_ext]. reflexivity.
  - exists u, (col_trace 0 0 0). split; [|split; [auto|split; [reflexivity|split; [|reflexivity]]]].
    + split; [right; unfold u; eauto|]. split; [right; cbn [f_D]; eauto|]. split; [exists 0, 0, 0; split; reflexivity|].
      intros w phi dl Hw Hp (t0 & t1 & t2 & T1 & T2). generalize ea. clear ea. intros ea.
      destruct Hw as [-> | (w0 & w1 & w2 & w3 & ->)]; destruct Hp as [-> | (p0 & p1 & ->)]; unfold u;
      unfold hybrid_eqn, on_facets, eliminated_theta, exner_prime, divf, quotient1, dx, dS_, ds_, vdot, v_div; cbn; rewrite ?T1, ?T2; field.
    + split; [exists 0, 0; unfold same_field; cbn; auto|]. intros gamma _. apply dx_0. intros k. cbn. destruct k; field.
  - right. eauto.
  - unfold linear_density, divf, dx, vdot, v_div, u. cbn. lra.
Qed.

(** ** Two cells side by side (periodic), in two dimensions: horizontal velocities linear in each cell, any vertical velocity *)
Definition side_by_side : geometry := {| ncp := 2; cw := fun _ => 1; nfp := 2; fw := fun _ => 1; nbp := 0; bw := fun _ => 1 |}.
Definition up2 : nat -> nat -> R := fun _ i => match i with 1%nat => 1 | _ => 0 end.
Definition all_vertical (_ : nat) : bool := true.
Definition horizontal_velocity (a0 a1 a2 a3 : R) : velocity_field :=
  {| u_at := fun k => {| v_val := fun i => match i with 0%nat => match k with 0%nat => (a0 + a1) / 2 | _ => (a2 + a3) / 2 end | _ => 0 end;
                         v_grad := fun i j => match i, j with 0%nat, 0%nat => match k with 0%nat => a1 - a0 | _ => a3 - a2 end | _, _ => 0 end |};
     u_np := fun f => match f with 0%nat => a1 | _ => a3 end; u_nm := fun f => match f with 0%nat => - a2 | _ => - a0 end; u_nb := fun _ => 0 |}.
Definition SVb (u : broken) : Prop := exists a0 a1 a2 a3, u = {| bu := horizontal_velocity a0 a1 a2 a3; bz := constant 0; bv := zero_v |}.
Definition side_cells (r0 r1 : R) : sfield :=
  {| sv := fun k => match k with 0%nat => r0 | _ => r1 end; sg := fun _ _ => 0; sp := fun f => match f with 0%nat => r0 | _ => r1 end; sm := fun f => match f with 0%nat => r1 | _ => r0 end; sb := fun _ => 0 |}.
Definition SVr (s : sfield) : Prop := exists r0 r1, s = side_cells r0 r1.
Definition any_trace (_ : trace) : Prop := True.
(** warm on one of the facets: grad(thetabar) is horizontal, 1 in the first cell and -1 in the second *)
Definition warm_facet : sfield :=
  {| sv := fun _ => 3/2; sg := fun k i => match i with 0%nat => match k with 0%nat => 1 | _ => -1 end | _ => 0 end;
     sp := fun f => match f with 0%nat => 2 | _ => 1 end; sm := fun f => match f with 0%nat => 2 | _ => 1 end; sb := fun _ => 0 |}.
(** The elimination of theta neglects horizontal gradients of the reference potential temperature, which are part of the linear system *)
Theorem hybrid_horizontal_theta_refuted : exists Xr ra ea xin u_hdiv y gamma, f_b Xr = warm_facet /\
  (forall k, sv (constant 0) k = vdot 2 (up2 k) (sg (f_b Xr) k)) /\
  trace_average side_by_side any_trace (f_D Xr) ra /\
  hybrid_apply side_by_side 2 up2 all_vertical none unit_params col_options Xr (constant 0) (constant 0) ra ea xin SVb SVr any_trace SVr u_hdiv y /\
  SVr gamma /\ linear_theta side_by_side 2 col_options Xr xin y gamma <> 0.
Proof.
  set (Xr := {| f_u := zero_v; f_D := constant 1; f_b := warm_facet; f_q := constant 0 |}).
  set (tr := {| t_int := fun _ => 1; t_ext := fun _ => 1 |}).
  set (u := {| bu := horizontal_velocity 1 1 1 1; bz := constant 0; bv := zero_v |}).
  exists Xr, tr, tr, {| f_u := bu u; f_D := side_cells 0 0; f_b := side_cells 0 0; f_q := constant 0 |}, u,
    {| f_u := bu u; f_D := side_cells 0 0; f_b := side_cells 0 0; f_q := constant 0 |}, (side_cells 1 0).
  split; [reflexivity|]. split; [intros k; unfold vdot; cbn; ring|]. split; [|split; [|split]].
  - split; [exact I|]. intros dl _. unfold on_facets, avg_, dS_, ds_. cbn. field.
  - exists u, {| t_int := fun _ => 0; t_ext := fun _ => 0 |}. split; [|split; [auto|split; [reflexivity|split; [|reflexivity]]]].
    + split; [unfold SVb, u; eauto|]. split; [unfold SVr; cbn [f_D]; eauto|]. split; [exact I|].
      intros w phi dl (w0 & w1 & w2 & w3 & ->) (p0 & p1 & ->) _. unfold u, Xr, tr.
      unfold hybrid_eqn, on_facets, eliminated_theta, exner_prime, divf, quotient1, dx, dS_, ds_, vdot, v_div; cbn. field.
    + split; [unfold SVr; cbn [f_b]; eauto|]. intros gamma _. apply dx_0. intros k. cbn. destruct k; ring.
  - unfold SVr; eauto.
  - unfold linear_theta, dx, vdot, u. cbn. lra.
Qed.

(** ** Moisture *)
(** Where all tracers are mixing ratios of water, the preconditioner uses the virtual potential temperature of the equations; water in other variables is refused *)
Theorem hybrid_moisture_consistent : forall ts X,
  (forall t, In t ts -> tr_H2O t = true -> tr_mixing t = true) -> exists m, hybrid_moisture ts X = Ok m /\ m = total_mr tr_H2O ts X.
Proof.
  intros ts X H. exists (total_mr tr_H2O ts X). split; [|reflexivity].
  induction ts as [|t ts IH]; [reflexivity|]. cbn [hybrid_moisture total_mr fold_right]. rewrite IH by (intros; apply H; [right|]; auto).
  destruct (tr_H2O t) eqn:E; [|reflexivity]. rewrite (H t (or_introl eq_refl) E). reflexivity.
Qed.
Theorem hybrid_moisture_refused : forall ts X, (exists t, In t ts /\ tr_H2O t = true /\ tr_mixing t = false) -> hybrid_moisture ts X = Err NotImplementedError.
Proof.
  intros ts X (t & Hin & H1 & H2). induction ts as [|a ts IH]; [destruct Hin|]. cbn [hybrid_moisture].
  destruct Hin as [-> | Hin]; [rewrite H1, H2; reflexivity|]. rewrite (IH Hin). destruct (tr_H2O a); [destruct (tr_mixing a)|]; reflexivity.
Qed.
(** A mixing ratio that is not water (a chemical) is in the virtual potential temperature of the equations but not in that of the preconditioner *)
Theorem hybrid_other_tracer_refuted : exists ts X m k, hybrid_moisture ts X = Ok m /\ sv (quotient1 (f_b X) m) k <> sv (theta_v ts X) k.
Proof.
  exists [{| tr_H2O := false; tr_mixing := true; tr_phase := Gas; tr_of := f_q |}], {| f_u := zero_v; f_D := constant 1; f_b := constant 1; f_q := constant 1 |}, (constant 0), 0%nat.
  split; [reflexivity|]. cbn. lra.
Qed.
