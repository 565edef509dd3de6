(** C116-C120: diagnostics computed from integrals. *)
From Coq Require Import Lra Lia List String.
Import ListNotations.
From Verif Require Import Base Vec Transport TransportProps CommonForms Equations EquationsProps Thermo Compressible CompressibleProps Vorticity VorticityProps DiagForms CourantProps.
Open Scope R_scope.

Lemma dx_in G f g : (forall k, (k < ncp G)%nat -> f k = g k) -> dx G f = dx G g.
Proof. intros H. unfold dx. apply rsum_ext. intros k Hk. rewrite H by exact Hk. reflexivity. Qed.
Lemma dx_minus G f g : dx G (fun k => f k - g k) = dx G f - dx G g.
Proof. rewrite (dx_ext G _ (fun k => f k + -1 * g k)) by (intros; ring). rewrite dx_plus, dx_scale. ring. Qed.
Lemma dx_nonneg G f : (forall k, (k < ncp G)%nat -> 0 <= cw G k) -> (forall k, (k < ncp G)%nat -> 0 <= f k) -> 0 <= dx G f.
Proof. intros H1 H2. unfold dx. apply wsum_nonneg. auto. Qed.
Lemma dx_le G f g : (forall k, (k < ncp G)%nat -> 0 <= cw G k) -> (forall k, (k < ncp G)%nat -> f k <= g k) -> dx G f <= dx G g.
Proof. intros H1 H2. unfold dx. apply wsum_le. auto. Qed.
Lemma rsum_zero_of n f : (forall k, (k < n)%nat -> 0 <= f k) -> rsum n f = 0 -> forall k, (k < n)%nat -> f k = 0.
Proof.
  induction n as [|n IH]; intros Hf H k Hk; [lia|]. cbn in H. assert (0 <= rsum n f). { clear - Hf. induction n as [|n IH]; cbn; [lra|]. pose proof (Hf n ltac:(lia)). assert (0 <= rsum n f) by (apply IH; intros; apply Hf; lia). lra. }
  pose proof (Hf n ltac:(lia)). destruct (Nat.eq_dec k n) as [-> |N]; [lra|]. apply IH; [intros; apply Hf; lia|lra|lia].
Qed.
(** all quadrature weights of the cells are positive *)
Definition positive_weights (G : geometry) : Prop := forall k, (k < ncp G)%nat -> 0 < cw G k.
Lemma dx_zero_of G f : positive_weights G -> (forall k, (k < ncp G)%nat -> 0 <= f k) -> dx G f = 0 -> forall k, (k < ncp G)%nat -> f k = 0.
Proof.
  intros HG Hf H k Hk. assert (E : cw G k * f k = 0).
  { apply (rsum_zero_of (ncp G) (fun k => cw G k * f k)); [|exact H|exact Hk]. intros j Hj. apply Rmult_le_pos; [left; apply HG|apply Hf]; exact Hj. }
  specialize (HG k Hk). apply Rmult_integral in E as [E|E]; lra.
Qed.

(** ** C116: vorticity *)
(** a function space that contains the constants and the differences of its functions *)
Definition contains_constants (V : sfield -> Prop) : Prop := V (constant 1).
Definition closed_under_difference (V : sfield -> Prop) : Prop := forall a b, V a -> V b -> V (sadd a (sopp b)).
(** The total relative vorticity is zero; that of the absolute vorticity, and of the potential vorticity times the depth, that of the Coriolis parameter. *)
Theorem vorticity_totals : forall G V u f Dp q, contains_constants V ->
  (vorticity_solves G V Relative u f Dp q -> dx G (sv q) = 0) /\
  (vorticity_solves G V Absolute u f Dp q -> dx G (sv q) = dx G (sv f)) /\
  (vorticity_solves G V Potential u f Dp q -> dx G (fun k => sv q k * sv Dp k) = dx G (sv f)).
Proof.
  intros G V u f Dp q V1. assert (Z : dx G (fun k => - dot2 (perp2d (sg (constant 1) k)) (pv u k)) = 0) by (apply dx_0; intros k; unfold dot2, perp2d; cbn; ring).
  split; [|split]; intros [_ H]; specialize (H _ V1); unfold vorticity_rhs in H; rewrite Z in H; cbn in H.
  - rewrite (dx_ext G (sv q) (fun k => sv q k * 1)) by (intros; ring). lra.
  - rewrite (dx_ext G (sv q) (fun k => sv q k * 1)) by (intros; ring). rewrite (dx_ext G (sv f) (fun k => 1 * sv f k)) by (intros; ring). lra.
  - rewrite (dx_ext G _ (fun k => sv q k * 1 * sv Dp k)) by (intros; ring). rewrite (dx_ext G (sv f) (fun k => 1 * sv f k)) by (intros; ring). lra.
Qed.
(** Absolute vorticity is relative vorticity plus the Coriolis parameter, if that is in the space; potential vorticity times depth is absolute vorticity, tested. *)
Theorem vorticity_types_agree : forall G V u f Dp r a q, positive_weights G -> closed_under_difference V ->
  vorticity_solves G V Relative u f Dp r -> vorticity_solves G V Absolute u f Dp a -> vorticity_solves G V Potential u f Dp q ->
  (V f -> forall k, (k < ncp G)%nat -> sv a k = sv r k + sv f k) /\
  (forall gamma, V gamma -> dx G (fun k => sv gamma k * (sv q k * sv Dp k)) = dx G (fun k => sv gamma k * sv a k)).
Proof.
  intros G V u f Dp r a q HG HV [Vr Hr] [Va Ha] [Vq Hq]. split.
  - intros Vf. assert (Vd : V (sadd (sadd a (sopp r)) (sopp f))) by (apply HV; [apply HV; assumption|exact Vf]). set (e := sadd (sadd a (sopp r)) (sopp f)) in *.
    specialize (Hr e Vd). specialize (Ha e Vd). cbn in Hr, Ha.
    assert (Z : dx G (fun k => (sv a k + - sv r k + - sv f k) * (sv a k + - sv r k + - sv f k)) = 0).
    { rewrite (dx_ext G _ (fun k => sv a k * (sv a k + - sv r k + - sv f k) - (sv r k * (sv a k + - sv r k + - sv f k) + (sv a k + - sv r k + - sv f k) * sv f k))) by (intros; ring).
      rewrite dx_minus, dx_plus. unfold vorticity_rhs in *. cbn in *. lra. }
    intros k Hk. pose proof (dx_zero_of G _ HG (fun j _ => Rle_0_sqr (sv a j + - sv r j + - sv f j)) Z k Hk) as E. apply Rsqr_0_uniq in E. lra.
  - intros gamma Vg. specialize (Ha gamma Vg). specialize (Hq gamma Vg). cbn in Ha, Hq. rewrite (dx_ext G _ (fun k => sv q k * sv gamma k * sv Dp k)) by (intros; ring).
    rewrite (dx_ext G (fun k => sv gamma k * sv a k) (fun k => sv a k * sv gamma k)) by (intros; ring). unfold vorticity_rhs in *. lra.
Qed.
(** With the theorem of Stokes (no boundary, continuous velocity) the relative vorticity is the curl of the velocity: tested, and at the
    quadrature points if the curl is in the space. *)
Theorem vorticity_is_curl : forall G V u f Dp q, positive_weights G -> closed_under_difference V ->
  (forall gamma, V gamma -> dx G (fun k => sv gamma k * curl2 u k) = dx G (fun k => - dot2 (perp2d (sg gamma k)) (pv u k))) ->
  vorticity_solves G V Relative u f Dp q ->
  (forall gamma, V gamma -> dx G (fun k => sv gamma k * sv q k) = dx G (fun k => sv gamma k * curl2 u k)) /\
  (forall z, V z -> (forall k, sv z k = curl2 u k) -> forall k, (k < ncp G)%nat -> sv q k = curl2 u k).
Proof.
  intros G V u f Dp q HG HV HS [Vq Hq].
  assert (A : forall gamma, V gamma -> dx G (fun k => sv gamma k * sv q k) = dx G (fun k => sv gamma k * curl2 u k)).
  { intros gamma Vg. rewrite (HS gamma Vg). specialize (Hq gamma Vg). cbn in Hq. unfold vorticity_rhs in Hq. rewrite (dx_ext G _ (fun k => sv q k * sv gamma k)) by (intros; ring). lra. }
  split; [exact A|]. intros z Vz Ez k Hk. assert (Vd : V (sadd q (sopp z))) by (apply HV; assumption). specialize (A _ Vd). cbn in A.
  assert (Z : dx G (fun k => (sv q k - curl2 u k) * (sv q k - curl2 u k)) = 0).
  { rewrite (dx_ext G _ (fun k => (sv q k + - sv z k) * sv q k - (sv q k + - sv z k) * curl2 u k)) by (intros j; rewrite Ez; ring). rewrite dx_minus. lra. }
  pose proof (dx_zero_of G _ HG (fun j _ => Rle_0_sqr (sv q j - curl2 u j)) Z k Hk) as E. apply Rsqr_0_uniq in E. lra.
Qed.
(** On a domain with boundary it is not: no boundary term is added, and a flow whose curl is a non-zero constant gets vorticity of total zero. *)
Theorem vorticity_with_boundary_refuted : forall G V u f Dp q c, contains_constants V -> vorticity_solves G V Relative u f Dp q ->
  (forall k, curl2 u k = c) -> c <> 0 -> 0 < dx G (fun _ => 1) -> ~ (forall k, (k < ncp G)%nat -> sv q k = curl2 u k).
Proof.
  intros G V u f Dp q c V1 Hq Hc Nc HA H. destruct (vorticity_totals G V u f Dp q V1) as [T _]. specialize (T Hq).
  assert (E : dx G (sv q) = dx G (fun _ => c * 1)) by (apply dx_in; intros k Hk; rewrite (H k Hk), Hc; ring).
  rewrite dx_scale, T in E. symmetry in E. apply Rmult_integral in E as [E|E]; lra.
Qed.
(** The three formulas of the potential enstrophy agree, and it is not negative. *)
Theorem potential_enstrophies_agree : forall c f Dp, 0 < Dp -> let e ty := enstrophy_expr ty (vorticity_expr ty c f Dp) f Dp in
  e Relative = e Potential /\ e Absolute = e Potential /\ 0 <= e Potential.
Proof.
  intros c f Dp HD e. unfold e, enstrophy_expr, vorticity_expr. split; [field; lra|]. split; [field; lra|]. apply Rmult_le_pos; [|lra]. pose proof (pow2_ge_0 ((c + f) / Dp)). lra.
Qed.

(** ** C117: gradients *)
(** the divergence theorem for the test functions: their flux through the boundary is the integral of their divergence *)
Definition flux_theorem (G : geometry) (d : nat) (V : velocity_field -> Prop) : Prop :=
  forall w, V w -> dx G (fun k => v_div d (u_at w k)) = ds_ G (fun b => u_nb w b).
(** The gradient of a constant is zero on an extruded mesh without lateral boundary (periodic, or around the sphere), ... *)
Theorem gradient_of_constant : forall G d lateral V a g, positive_weights G -> flux_theorem G d V ->
  (forall b, (b < nbp G)%nat -> lateral b = false) -> gradient_solves G d lateral V true (constant a) g ->
  forall k i, (k < ncp G)%nat -> (i < d)%nat -> v_val (u_at g k) i = 0.
Proof.
  intros G d lateral V a g HG HF HL [Vg Hg] k i Hk Hi. specialize (Hg g Vg). unfold gradient_rhs in Hg. cbn [constant sv sb] in Hg.
  rewrite (dx_ext G (fun k => v_div d (u_at g k) * a) (fun k => a * v_div d (u_at g k))) in Hg by (intros; ring). rewrite dx_scale, (HF g Vg) in Hg.
  rewrite (ds_ext G (fun b => if lateral b then 0 else u_nb g b * a) (fun b => a * u_nb g b)) in Hg by (intros b Hb; rewrite (HL b Hb); ring). rewrite ds_scale in Hg.
  assert (Z : gradient_lhs G d g g = 0). { rewrite Hg. change (fun b : nat => u_nb g b) with (u_nb g). ring. }
  unfold gradient_lhs in Z.
  assert (P : forall j, 0 <= vdot d (v_val (u_at g j)) (v_val (u_at g j))) by (intros j; unfold vdot; apply SspProps.rsum_nonneg; intros; apply Rle_0_sqr).
  pose proof (dx_zero_of G _ HG (fun j _ => P j) Z k Hk) as E. unfold vdot in E.
  pose proof (rsum_zero_of d _ (fun j _ => Rle_0_sqr (v_val (u_at g k) j)) E i Hi) as E2. apply Rsqr_0_uniq in E2. exact E2.
Qed.
(** ... and in general what is computed is the gradient, tested, less what flows through the boundaries left out: the lateral ones of an
    extruded mesh, all of any other mesh. *)
Theorem gradient_documented : forall G d lateral (V : velocity_field -> Prop) extruded f g, (forall w, V w -> divergence_theorem G d f w) ->
  (forall w x, V w -> sp f x * u_np w x + sm f x * u_nm w x = 0) ->
  gradient_solves G d lateral V extruded f g -> forall w, V w ->
  dx G (fun k => vdot d (v_val (u_at w k)) (v_val (u_at g k))) =
  dx G (fun k => vdot d (v_val (u_at w k)) (sg f k)) - ds_ G (fun b => if extruded && negb (lateral b) then 0 else u_nb w b * sb f b).
Proof.
  intros G d lateral V extruded f g HD HC [Vg Hg] w Vw. specialize (Hg w Vw). unfold gradient_lhs, gradient_rhs in Hg. rewrite Hg. specialize (HD w Vw). unfold divergence_theorem in HD.
  rewrite (dS_ext G _ (fun _ => 0)) in HD by (intros x; apply HC; exact Vw). rewrite dS_0, Rplus_0_l in HD by reflexivity. rewrite dx_plus in HD.
  rewrite (dx_ext G (fun k => v_div d (u_at w k) * sv f k) (fun k => sv f k * v_div d (u_at w k))) by (intros; ring).
  assert (S : ds_ G (fun b => sb f b * u_nb w b) = (if extruded then ds_ G (fun b => if lateral b then 0 else u_nb w b * sb f b) else 0) + ds_ G (fun b => if extruded && negb (lateral b) then 0 else u_nb w b * sb f b)).
  { destruct extruded; cbn [andb].
    - rewrite <- ds_plus. apply ds_ext. intros b _. destruct (lateral b); cbn; ring.
    - rewrite Rplus_0_l. apply ds_ext. intros. ring. }
  lra.
Qed.
(** Hence the gradient of a constant is not zero on a mesh with (lateral) boundary: on the unit interval of one cell it is 6 a at the left end
    and - 6 a at the right end. *)
Definition unit_cell : geometry :=     (* three Gauss points are enough for the products of linear functions; Simpson's rule is exact too *)
  {| ncp := 3; cw := fun k => match k with 1%nat => 2/3 | _ => 1/6 end; nfp := 0; fw := fun _ => 0; nbp := 2; bw := fun _ => 1 |}.
Definition linear_field (l r : R) : velocity_field :=
  {| u_at := fun k => {| v_val := fun _ => match k with 0%nat => l | 1%nat => (l + r) / 2 | _ => r end; v_grad := fun _ _ => r - l |};
     u_np := fun _ => 0; u_nm := fun _ => 0; u_nb := fun b => match b with 0%nat => - l | _ => r end |}.
Theorem gradient_with_boundary_refuted : let V w := exists l r, w = linear_field l r in
  positive_weights unit_cell /\ flux_theorem unit_cell 1 V /\
  forall a g, gradient_solves unit_cell 1 (fun _ => true) V false (constant a) g <-> g = linear_field (6 * a) (-6 * a).
Proof.
  cbv zeta. split; [|split].
  - intros [|[|[|k]]] Hk; cbn in *; try lia; lra.
  - intros w (l & r & ->). unfold dx, ds_, v_div. cbn. lra.
  - intros a g. unfold gradient_solves, gradient_lhs, gradient_rhs, vdot, v_div, dx. split.
    + intros [(l & r & ->) H]. pose proof (H (linear_field 1 0) ltac:(eauto)) as H0. pose proof (H (linear_field 0 1) ltac:(eauto)) as H1. cbn in H0, H1.
      assert (l = 6 * a) by lra. assert (r = -6 * a) by lra. subst. reflexivity.
    + intros ->. split; [eauto|]. intros w (l & r & ->). cbn. field.
Qed.

(** ** C118: hydrostatic imbalance *)
Section Imbalance.
Variables (G : geometry) (d : nat) (kvec : nat -> nat -> R) (vertical : nat -> bool) (P : cparams).
Lemma jump_diff a b w f : jump_ (difference a b) w f = jump_ a w f - jump_ b w f. Proof. unfold jump_, difference. cbn. ring. Qed.
Lemma avg_diff a b f : avg_ (difference a b) f = avg_ a f - avg_ b f. Proof. unfold avg_, difference. cbn. field. Qed.
Lemma vdot_minus a b c : vdot d a (fun i => b i + - c i) = vdot d a b - vdot d a c.
Proof. unfold vdot. rewrite (rsum_ext d _ (fun i => a i * b i + -1 * (a i * c i))) by (intros; ring). rewrite rsum_add, rsum_scal. ring. Qed.
Lemma dSv_minus f g : dS_v G vertical (fun k => f k - g k) = dS_v G vertical f - dS_v G vertical g.
Proof. unfold dS_v. rewrite (dS_ext G _ (fun k => (if vertical k then f k else 0) + -1 * (if vertical k then g k else 0))) by (intros k; destruct (vertical k); ring). rewrite dS_plus, dS_scale. ring. Qed.
Lemma dS_v_ext f g : (forall k, f k = g k) -> dS_v G vertical f = dS_v G vertical g.
Proof. intros H. unfold dS_v. apply dS_ext. intros k. destruct (vertical k); [apply H|reflexivity]. Qed.
Lemma dS_v_scale a f : dS_v G vertical (fun k => a * f k) = a * dS_v G vertical f.
Proof. unfold dS_v. rewrite <- dS_scale. apply dS_ext. intros k. destruct (vertical k); ring. Qed.
Lemma weak_pressure_diff_l a b e w : weak_pressure G d vertical P (difference a b) e w = weak_pressure G d vertical P a e w - weak_pressure G d vertical P b e w.
Proof.
  unfold weak_pressure. rewrite (dx_ext G (fun k => (sv (difference a b) k * _ + _) * _) (fun k => (sv a k * v_div d (u_at w k) + vdot d (v_val (u_at w k)) (sg a k)) * sv e k - (sv b k * v_div d (u_at w k) + vdot d (v_val (u_at w k)) (sg b k)) * sv e k)).
  - rewrite dx_minus. assert (J : dS_v G vertical (fun f => jump_ (difference a b) w f * avg_ e f) = dS_v G vertical (fun f => jump_ a w f * avg_ e f) - dS_v G vertical (fun f => jump_ b w f * avg_ e f)).
    { rewrite <- dSv_minus. unfold dS_v. apply dS_ext. intros k. destruct (vertical k); [rewrite jump_diff; ring|reflexivity]. }
    rewrite J. ring.
  - intros k. cbn [difference sadd sopp sv sg]. rewrite vdot_minus. ring.
Qed.
Lemma weak_pressure_diff_r th a b w : weak_pressure G d vertical P th (difference a b) w = weak_pressure G d vertical P th a w - weak_pressure G d vertical P th b w.
Proof.
  unfold weak_pressure. set (A := fun k => sv th k * v_div d (u_at w k) + vdot d (v_val (u_at w k)) (sg th k)).
  rewrite (dx_ext G (fun k => _ * sv (difference a b) k) (fun k => A k * sv a k - A k * sv b k)) by (intros k; unfold A; cbn; ring). rewrite dx_minus.
  assert (J : dS_v G vertical (fun f => jump_ th w f * avg_ (difference a b) f) = dS_v G vertical (fun f => jump_ th w f * avg_ a f) - dS_v G vertical (fun f => jump_ th w f * avg_ b f)).
  { rewrite <- dSv_minus. unfold dS_v. apply dS_ext. intros k. destruct (vertical k); [rewrite avg_diff; ring|reflexivity]. }
  rewrite J. unfold A. ring.
Qed.
(** What is computed is the difference of the pressure gradients of the state and the reference state, less their second-order part ... *)
Lemma imbalance_value X Xbar w : imbalance_rhs G d vertical P X Xbar w =
  weak_pressure G d vertical P (f_b X) (exner_field P X) w - weak_pressure G d vertical P (f_b Xbar) (exner_field P Xbar) w
  - weak_pressure G d vertical P (difference (f_b X) (f_b Xbar)) (difference (exner_field P X) (exner_field P Xbar)) w.
Proof. unfold imbalance_rhs. rewrite !weak_pressure_diff_l, !weak_pressure_diff_r, ?weak_pressure_diff_l. ring. Qed.
End Imbalance.
(** The dry equations: pressure gradient and gravity, tested with w *)
Definition dry_force G d kvec vertical P g (X : fields) (w : velocity_field) : R :=
  weak_pressure G d vertical P (f_b X) (exner_field P X) w + g * dx G (fun k => vdot d (kvec k) (v_val (u_at w k))).
Lemma dry_force_is_equation G d kvec vertical P g X T : euler_pressure G d vertical P [] X T + euler_gravity G d kvec g X T = dry_force G d kvec vertical P g X (f_u T).
Proof.
  unfold dry_force, euler_pressure, euler_gravity, weak_pressure, theta_v, total_mr. cbn [fold_right]. f_equal. f_equal. f_equal.
  - f_equal. apply dx_ext. intros k. cbn [quotient1 constant sv sg]. f_equal. f_equal; [f_equal; field|]. unfold vdot. apply rsum_ext. intros i _. field.
  - unfold dS_v. apply dS_ext. intros f. destruct (vertical f); [|reflexivity]. f_equal. unfold jump_. cbn. f_equal; field.
Qed.
(** ... that is, of the dry equations, the vertical force on the fluid at rest, up to the second-order part, if the reference state is balanced. *)
Theorem imbalance_is_linearised_force : forall G d kvec vertical P g V X Xbar F, imbalance_solves G d vertical P V X Xbar F ->
  (forall T, V (f_u T) -> euler_pressure G d vertical P [] Xbar T + euler_gravity G d kvec g Xbar T = 0) ->
  forall T, V (f_u T) -> dx G (fun k => vdot d (v_val (u_at (f_u T) k)) (v_val (u_at F k))) =
    euler_pressure G d vertical P [] X T + euler_gravity G d kvec g X T
    - weak_pressure G d vertical P (difference (f_b X) (f_b Xbar)) (difference (exner_field P X) (exner_field P Xbar)) (f_u T).
Proof.
  intros G d kvec vertical P g V X Xbar F [_ HF] HB T VT. rewrite (HF _ VT), imbalance_value. specialize (HB T VT). rewrite dry_force_is_equation in HB |- *. unfold dry_force in *. lra.
Qed.
(** It vanishes in the reference state. *)
Theorem imbalance_zero_at_reference : forall G d kvec vertical P V X Xbar F, positive_weights G ->
  f_b X = f_b Xbar -> f_D X = f_D Xbar -> imbalance_solves G d vertical P V X Xbar F -> forall k, (k < ncp G)%nat -> imbalance d kvec F k = 0.
Proof.
  intros G d kvec vertical P V X Xbar F HG Eb ED [VF HF] k Hk. specialize (HF F VF). rewrite imbalance_value in HF.
  assert (EX : exner_field P X = exner_field P Xbar) by (unfold exner_field; rewrite Eb, ED; reflexivity). rewrite Eb, EX, weak_pressure_diff_l in HF.
  assert (Z : dx G (fun k => vdot d (v_val (u_at F k)) (v_val (u_at F k))) = 0) by lra.
  assert (Q : forall j, 0 <= vdot d (v_val (u_at F j)) (v_val (u_at F j))) by (intros j; unfold vdot; apply SspProps.rsum_nonneg; intros; apply Rle_0_sqr).
  pose proof (dx_zero_of G _ HG (fun j _ => Q j) Z k Hk) as E. unfold vdot in E. unfold imbalance, vdot. apply rsum_0. intros i Hi.
  pose proof (rsum_zero_of d _ (fun j _ => Rle_0_sqr (v_val (u_at F k) j)) E i Hi) as E2. apply Rsqr_0_uniq in E2. rewrite E2. ring.
Qed.
(** It does not depend on the water in the air, on which the force does depend: with a mixing ratio of r everywhere, in the reference state, the
    diagnostic is zero but the force is r / (1 + r) times the weight. *)
Theorem imbalance_without_water_refuted : forall G d kvec vertical P g V Xbar F r t, imbalance_solves G d vertical P V Xbar Xbar F ->
  (forall T, V (f_u T) -> euler_pressure G d vertical P [] Xbar T + euler_gravity G d kvec g Xbar T = 0) ->
  tr_mixing t = true -> tr_of t Xbar = constant r -> 1 + r <> 0 ->
  forall T, V (f_u T) -> dx G (fun k => vdot d (v_val (u_at (f_u T) k)) (v_val (u_at F k))) = 0 /\
    euler_pressure G d vertical P [t] Xbar T + euler_gravity G d kvec g Xbar T = r / (1 + r) * (g * dx G (fun k => vdot d (kvec k) (v_val (u_at (f_u T) k)))).
Proof.
  intros G d kvec vertical P g V Xbar F r t [_ HF] HB Ht Er Nr T VT. split.
  - rewrite (HF _ VT), imbalance_value, weak_pressure_diff_l. ring.
  - specialize (HB T VT). rewrite dry_force_is_equation in HB. unfold dry_force in HB. unfold euler_gravity.
    assert (E : euler_pressure G d vertical P [t] Xbar T = / (1 + r) * weak_pressure G d vertical P (f_b Xbar) (exner_field P Xbar) (f_u T)).
    { unfold euler_pressure, weak_pressure, theta_v, total_mr. cbn [fold_right]. rewrite Ht, Er.
      rewrite (dx_ext G (fun k => (sv (quotient1 _ _) k * _ + _) * _) (fun k => / (1 + r) * ((sv (f_b Xbar) k * v_div d (u_at (f_u T) k) + vdot d (v_val (u_at (f_u T) k)) (sg (f_b Xbar) k)) * sv (exner_field P Xbar) k))).
      - rewrite dx_scale. rewrite (dS_v_ext G vertical _ (fun f => / (1 + r) * (jump_ (f_b Xbar) (f_u T) f * avg_ (exner_field P Xbar) f))).
        + rewrite dS_v_scale. ring.
        + intros f. unfold jump_. cbn. field. lra.
      - intros k. assert (Q : vdot d (v_val (u_at (f_u T) k)) (sg (quotient1 (f_b Xbar) (sadd (constant r) (constant 0))) k) = / (1 + r) * vdot d (v_val (u_at (f_u T) k)) (sg (f_b Xbar) k)).
        { unfold vdot. rewrite <- rsum_scal. apply rsum_ext. intros i _. cbn. field. lra. }
        rewrite Q. cbn. field. lra. }
    rewrite E. match type of HB with ?w + ?x = 0 => replace w with (- x) by lra end. field. lra.
Qed.
(** The hypotheses can be met: one quadrature point, the potential temperature falling off so that the pressure gradient balances gravity. *)
Example imbalance_example : forall P g, cp P <> 0 -> exner_pressure P 1 1 <> 0 ->
  let w := {| u_at := fun _ => {| v_val := fun _ => 1; v_grad := fun _ _ => 0 |}; u_np := fun _ => 0; u_nm := fun _ => 0; u_nb := fun _ => 0 |} in
  let zero := {| u_at := fun _ => {| v_val := fun _ => 0; v_grad := fun _ _ => 0 |}; u_np := fun _ => 0; u_nm := fun _ => 0; u_nb := fun _ => 0 |} in
  let V x := x = w \/ x = zero in
  let X := {| f_u := zero; f_D := constant 1; f_b := {| sv := fun _ => 1; sg := fun _ _ => g / (cp P * exner_pressure P 1 1); sp := fun _ => 1; sm := fun _ => 1; sb := fun _ => 1 |}; f_q := constant 0 |} in
  imbalance_solves one_point 1 (fun _ => true) P V X X zero /\
  (forall T, V (f_u T) -> euler_pressure one_point 1 (fun _ => true) P [] X T + euler_gravity one_point 1 (fun _ _ => 1) g X T = 0) /\
  dx one_point (fun k => vdot 1 (fun _ => 1) (v_val (u_at w k))) = 1.
Proof.
  intros P g Hc He w zero V X. split; [|split].
  - split; [right; reflexivity|]. intros x [-> | ->]; rewrite imbalance_value, weak_pressure_diff_l; unfold dx, vdot; cbn; ring.
  - intros T HT. unfold euler_pressure, euler_gravity, dS_v, dS_, dx, v_div, vdot. cbv zeta. destruct HT as [-> | ->]; unfold theta_v, total_mr, exner_field; cbn; field; auto.
  - unfold dx, vdot. cbn. ring.
Qed.

(** ** C119: precipitation *)
Lemma dg0_mass G D e x : dx G (fun k => sv (dg0 D (indicator e)) k * sv (dg0 D x) k) = x e * volume G D e.
Proof.
  unfold volume. rewrite <- dx_scale. apply dx_ext. intros k. cbn [dg0 sv]. rewrite ind_val. ring.
Qed.
(** the area of the bottom of cell e and the mass falling through it per unit time *)
Definition bottom_area G D bottom e : R := ds_bottom G bottom (fun b => indicator e (bdry_of D b)).
Definition falling G D bottom e (fall : nat -> R) : R := ds_bottom G bottom (fun b => indicator e (bdry_of D b) * fall b).
(** every cell either has a bottom of positive area or has none *)
Definition bottom_cells (cells : nat) G D bottom : Prop := (forall e, (e < cells)%nat -> 0 < volume G D e) /\
  (forall b, (b < nbp G)%nat -> bottom b = true -> (bdry_of D b < cells)%nat /\ 0 < bottom_area G D bottom (bdry_of D b)).
Lemma ds_bottom_ext G bottom f g : (forall b, (b < nbp G)%nat -> bottom b = true -> f b = g b) -> ds_bottom G bottom f = ds_bottom G bottom g.
Proof. intros H. unfold ds_bottom. apply ds_ext. intros b Hb. destruct (bottom b) eqn:E; [apply H; assumption|reflexivity]. Qed.
Lemma ds_bottom_scale G bottom a f : ds_bottom G bottom (fun b => a * f b) = a * ds_bottom G bottom f.
Proof. unfold ds_bottom. rewrite <- ds_scale. apply ds_ext. intros b _. destruct (bottom b); ring. Qed.
Lemma flux_value cells G D bottom dt area fall flux e : bottom_cells cells G D bottom -> area_solves G D bottom cells area -> flux_solves G D bottom cells dt area fall flux ->
  (e < cells)%nat -> bottom_area G D bottom e * flux e = dt * falling G D bottom e fall.
Proof.
  intros [HV HB] HA HF He. specialize (HV e He). pose proof (HA e He) as A. rewrite dg0_mass in A. change (ds_bottom G bottom (fun b => sb (dg0 D (indicator e)) b)) with (bottom_area G D bottom e) in A.
  pose proof (HF e He) as F. rewrite dg0_mass in F. destruct (Req_dec (bottom_area G D bottom e) 0) as [Z|N].
  - rewrite Z, Rmult_0_l. unfold falling. rewrite (ds_bottom_ext G bottom _ (fun _ => 0 * 0)), ds_bottom_scale; [ring|]. intros b Hb Eb. unfold indicator. destruct (Nat.eqb_spec (bdry_of D b) e) as [E|E]; [|ring].
    exfalso. destruct (HB b Hb Eb) as [_ Q]. rewrite E in Q. lra.
  - assert (Na : area e <> 0) by (intros E; rewrite E in A; lra).
    assert (F' : flux e * volume G D e = dt * (falling G D bottom e fall / area e)).
    { rewrite F. f_equal. unfold falling, Rdiv. rewrite Rmult_comm, <- ds_bottom_scale. apply ds_bottom_ext. intros b _ _. cbn [dg0 sb]. unfold indicator. destruct (Nat.eqb_spec (bdry_of D b) e) as [-> |E]; [field; exact Na|ring]. }
    rewrite <- A. replace (area e * volume G D e * flux e) with (area e * (flux e * volume G D e)) by ring. rewrite F'. field. exact Na.
Qed.
Lemma flux_zero cells G D bottom dt area fall flux e : bottom_cells cells G D bottom -> flux_solves G D bottom cells dt area fall flux ->
  (e < cells)%nat -> (forall b, (b < nbp G)%nat -> bottom b = true -> bdry_of D b <> e) -> flux e = 0.
Proof.
  intros [HV HB] HF He HN. pose proof (HF e He) as F. rewrite dg0_mass in F. rewrite (ds_bottom_ext G bottom _ (fun _ => 0 * 0)), ds_bottom_scale in F.
  - specialize (HV e He). assert (E : flux e * volume G D e = 0) by lra. apply Rmult_integral in E as [E|E]; lra.
  - intros b Hb Eb. cbn [dg0 sb]. unfold indicator. destruct (Nat.eqb_spec (bdry_of D b) e) as [E|E]; [exfalso; exact (HN b Hb Eb E)|ring].
Qed.
Definition rsum_list (l : list R) : R := fold_right Rplus 0 l.
(** After computing with fluxes fall_0, ..., fall_m: in every cell, precipitation times the area of the bottom is dt times the sum of what
    falls through the bottom per unit time; in cells without bottom facets it is zero. *)
Theorem precipitation_in_cells : forall cells G D bottom dt falls field, bottom_cells cells G D bottom ->
  precipitation G D bottom cells dt falls field -> forall e, (e < cells)%nat ->
  bottom_area G D bottom e * field e = dt * rsum_list (map (falling G D bottom e) falls) /\
  ((forall b, (b < nbp G)%nat -> bottom b = true -> bdry_of D b <> e) -> field e = 0).
Proof.
  intros cells G D bottom dt falls field HB H. induction H as [|falls fall field area flux H IH HA HF]; intros e He.
  - split; [cbn; ring|reflexivity].
  - destruct (IH e He) as [I1 I2]. split.
    + rewrite Rmult_plus_distr_l, I1, (flux_value cells G D bottom dt area fall flux e HB HA HF He), map_app. unfold rsum_list. rewrite fold_right_app. cbn.
      rewrite <- Rmult_plus_distr_l. f_equal. generalize (falling G D bottom e fall). clear. intros x. induction (map (falling G D bottom e) falls) as [|y l IH]; cbn; [ring|]. rewrite <- IH. ring.
    + intros HN. rewrite (I2 HN), (flux_zero cells G D bottom dt area fall flux e HB HF He HN). ring.
Qed.
(** Its integral over the bottom is dt times the sum of the mass fluxes through the bottom. *)
Theorem precipitation_total : forall cells G D bottom dt falls field, bottom_cells cells G D bottom ->
  precipitation G D bottom cells dt falls field ->
  ds_bottom G bottom (sb (dg0 D field)) = dt * rsum_list (map (ds_bottom G bottom) falls).
Proof.
  intros cells G D bottom dt falls field HB H.
  assert (S : forall f, ds_bottom G bottom f = rsum cells (fun e => ds_bottom G bottom (fun b => indicator e (bdry_of D b) * f b))).
  { intros f. unfold ds_bottom, ds_.
    transitivity (rsum (nbp G) (fun b => rsum cells (fun e => bw G b * (if bottom b then indicator e (bdry_of D b) * f b else 0)))).
    - apply rsum_ext. intros b Hb. destruct (bottom b) eqn:E; [|rewrite rsum_0; [ring|intros; ring]]. destruct (proj2 HB b Hb E) as [Q _].
      rewrite (rsum_ext cells _ (fun e => (if Nat.eqb e (bdry_of D b) then 1 else 0) * (bw G b * f b))).
      + symmetry. clear - Q. revert Q. generalize (bdry_of D b) as c. intros c Q. induction cells as [|n IH]; [lia|]. cbn [rsum]. destruct (Nat.eqb_spec n c) as [-> |N].
        * rewrite rsum_0; [ring|]. intros k Hk. destruct (Nat.eqb_spec k c); [lia|ring].
        * rewrite IH by lia. ring.
      + intros e _. unfold indicator. rewrite Nat.eqb_sym. ring.
    - generalize (nbp G) as n. intros n. induction n as [|n IH]; cbn [rsum]; [symmetry; apply rsum_0; reflexivity|]. rewrite IH. rewrite <- rsum_add. reflexivity. }
  rewrite S. rewrite (rsum_ext cells _ (fun e => dt * rsum_list (map (falling G D bottom e) falls))).
  - rewrite rsum_scal. f_equal. clear - S. induction falls as [|x l IH]; cbn [map rsum_list fold_right]; [apply rsum_0; reflexivity|]. rewrite rsum_add. f_equal; [symmetry; apply S|exact IH].
  - intros e He. destruct (precipitation_in_cells cells G D bottom dt falls field HB H e He) as [E _]. rewrite <- E. unfold bottom_area. rewrite Rmult_comm, <- ds_bottom_scale. apply ds_bottom_ext.
    intros b _ _. cbn [dg0 sb]. rewrite ind_val. ring.
Qed.
(** A run of n steps computes the diagnostic n + 1 times (also for the initial state), so that a constant rate r gives (n + 1) dt r per unit
    area instead of the n dt r that have fallen. *)
Theorem precipitation_counts_initial_state_refuted : forall cells G D bottom dt field n r, bottom_cells cells G D bottom ->
  precipitation G D bottom cells dt (repeat (fun _ => r) (S n)) field -> forall b, (b < nbp G)%nat -> bottom b = true ->
  field (bdry_of D b) = (INR n + 1) * dt * r.
Proof.
  intros cells G D bottom dt field n r HB H b Hb Eb. destruct (proj2 HB b Hb Eb) as [Hc HA]. destruct (precipitation_in_cells _ _ _ _ _ _ _ HB H _ Hc) as [E _].
  assert (F : forall e, falling G D bottom e (fun _ => r) = r * bottom_area G D bottom e).
  { intros e. unfold falling, bottom_area. rewrite <- ds_bottom_scale. apply ds_bottom_ext. intros. ring. }
  assert (Q : forall m, rsum_list (map (falling G D bottom (bdry_of D b)) (repeat (fun _ => r) m)) = INR m * (r * bottom_area G D bottom (bdry_of D b))).
  { induction m as [|m IH]; [cbn; ring|]. cbn [repeat map rsum_list fold_right]. fold (rsum_list (map (falling G D bottom (bdry_of D b)) (repeat (fun _ => r) m))). rewrite IH, F, S_INR. ring. }
  rewrite Q, S_INR in E. apply (Rmult_eq_reg_l (bottom_area G D bottom (bdry_of D b))); [rewrite E; ring|lra].
Qed.

(** ** C120: tracer density and global diagnostics *)
(** The tracer density is the cell mean of the product; its total is the total mass of the tracer, it lies between the bounds of the product, and a
    mixing ratio of one gives the cell mean of the density. *)
Theorem tracer_density_is_mean : forall cells G D m rho x, positive_weights G -> (forall e, (e < cells)%nat -> 0 < volume G D e) ->
  (forall k, (k < ncp G)%nat -> (cell_of D k < cells)%nat) -> tracer_density_solves G D cells m rho x ->
  dx G (sv (dg0 D x)) = dx G (fun k => sv m k * sv rho k) /\
  (forall lo hi e, (e < cells)%nat -> (forall k, (k < ncp G)%nat -> cell_of D k = e -> lo <= sv m k * sv rho k <= hi) -> lo <= x e <= hi).
Proof.
  intros cells G D m rho x HG HV HC H.
  assert (M : forall e, (e < cells)%nat -> x e * volume G D e = dx G (fun k => (sv m k * sv rho k) * indicator e (cell_of D k))).
  { intros e He. rewrite <- dg0_mass. rewrite (dx_ext G _ (fun k => sv (dg0 D x) k * sv (dg0 D (indicator e)) k)) by (intros; ring). apply (H e He). }
  split.
  - assert (S : forall f, dx G f = rsum cells (fun e => dx G (fun k => f k * indicator e (cell_of D k)))).
    { intros f. unfold dx. transitivity (rsum (ncp G) (fun k => rsum cells (fun e => cw G k * (f k * indicator e (cell_of D k))))).
      - apply rsum_ext. intros k Hk. specialize (HC k Hk).
        rewrite (rsum_ext cells _ (fun e => (if Nat.eqb e (cell_of D k) then 1 else 0) * (cw G k * f k))).
        + symmetry. clear - HC. revert HC. generalize (cell_of D k) as c. intros c Q. induction cells as [|n IH]; [lia|]. cbn [rsum]. destruct (Nat.eqb_spec n c) as [-> |N].
          * rewrite rsum_0; [ring|]. intros j Hj. destruct (Nat.eqb_spec j c); [lia|ring].
          * rewrite IH by lia. ring.
        + intros e _. unfold indicator. rewrite Nat.eqb_sym. ring.
      - generalize (ncp G) as n. intros n. induction n as [|n IH]; cbn [rsum]; [symmetry; apply rsum_0; reflexivity|]. rewrite IH, <- rsum_add. reflexivity. }
    rewrite (S (sv (dg0 D x))), (S (fun k => sv m k * sv rho k)). apply rsum_ext. intros e He. rewrite <- (M e He), <- dg0_mass. apply dx_ext. intros k. cbn. ring.
  - intros lo hi e He HB. specialize (HV e He). specialize (M e He).
    assert (B : lo * volume G D e <= x e * volume G D e <= hi * volume G D e).
    { rewrite M. unfold volume. rewrite <- !dx_scale. split; apply dx_le; try (intros k Hk; left; apply HG; exact Hk); intros k Hk; cbn [dg0 sv]; unfold indicator;
        (destruct (Nat.eqb_spec (cell_of D k) e) as [E|E]; [pose proof (HB k Hk E); lra|lra]). }
    destruct B as [B1 B2]. split; apply (Rmult_le_reg_r (volume G D e)); assumption.
Qed.
(** The root mean square is the L2 norm over the square root of the area, and lies between the absolute value of the mean and the largest absolute value. *)
Theorem global_diagnostics_consistent : forall G f, positive_weights G -> (0 < ncp G)%nat ->
  global_l2 G f = global_rms G f * sqrt (dx G (fun _ => 1)) /\
  Rabs (global_total G f) <= global_rms G f * dx G (fun _ => 1) /\
  (forall M, 0 <= M -> (forall k, (k < ncp G)%nat -> Rabs (f k) <= M) -> global_rms G f <= M) /\
  (global_l2 G f = 0 <-> forall k, (k < ncp G)%nat -> f k = 0).
Proof.
  intros G f HG HN. set (A := dx G (fun _ => 1)). set (S := dx G (fun k => f k * f k)).
  assert (HA : 0 < A).
  { unfold A, dx. rewrite (rsum_ext _ _ (cw G)) by (intros; ring). clear - HG HN. unfold positive_weights in HG. revert HG HN. generalize (ncp G) as n. intros n HG HN. destruct n; [lia|].
    assert (0 <= rsum n (cw G)) by (apply SspProps.rsum_nonneg; intros; left; apply HG; lia). cbn. pose proof (HG n ltac:(lia)). lra. }
  assert (HS : 0 <= S) by (unfold S; apply dx_nonneg; [intros; left; apply HG; assumption|intros; apply Rle_0_sqr]).
  assert (HSA : 0 <= S / A) by (apply Rmult_le_pos; [exact HS|left; apply Rinv_0_lt_compat; exact HA]).
  split; [|split; [|split]].
  - unfold global_l2, global_rms. fold A S. rewrite <- sqrt_mult by lra. f_equal. field. lra.
  - unfold global_rms, global_total. fold A S. set (T := dx G f).
    assert (CS : T * T <= S * A).
    { assert (Q : 0 <= dx G (fun k => (A * f k - T) * (A * f k - T))) by (apply dx_nonneg; [intros; left; apply HG; assumption|intros; apply Rle_0_sqr]).
      rewrite (dx_ext G _ (fun k => A * A * (f k * f k) + (-2 * A * T * f k + T * T * 1))) in Q by (intros; ring). rewrite !dx_plus, !dx_scale in Q. fold A S T in Q.
      assert (0 <= A * (S * A - T * T)) by lra. apply Rmult_le_reg_l with A; [exact HA|]. lra. }
    apply Rsqr_incr_0; [|apply Rabs_pos|apply Rmult_le_pos; [apply sqrt_pos|lra]].
    rewrite <- Rsqr_abs, Rsqr_mult, Rsqr_sqrt by exact HSA. unfold Rsqr. replace (S / A * (A * A)) with (S * A) by (field; lra). exact CS.
  - intros M HM HB. unfold global_rms. fold A S. rewrite <- (sqrt_square M HM). apply sqrt_le_1; [exact HSA|apply Rle_0_sqr|]. apply (Rmult_le_reg_r A); [exact HA|]. replace (S / A * A) with S by (field; lra).
    unfold S, A. rewrite <- dx_scale. apply dx_le; [intros; left; apply HG; assumption|]. intros k Hk. specialize (HB k Hk). pose proof (Rabs_pos (f k)).
    replace (f k * f k) with (Rabs (f k) * Rabs (f k)) by (rewrite <- Rabs_mult, Rabs_right; [reflexivity|apply Rle_ge, Rle_0_sqr]). nra.
  - unfold global_l2. fold S. split.
    + intros E k Hk. apply sqrt_eq_0 in E; [|exact HS]. pose proof (dx_zero_of G (fun k => f k * f k) HG (fun j _ => Rle_0_sqr (f j)) E k Hk) as Q. apply Rsqr_0_uniq. exact Q.
    + intros E. replace S with 0; [apply sqrt_0|]. unfold S. symmetry. rewrite (dx_in G _ (fun _ => 0)); [apply dx_0; reflexivity|]. intros k Hk. rewrite (E k Hk). ring.
Qed.

(** ** Examples: the hypotheses can be met *)
(** vorticity, on one cell with piecewise constants: a flow of curl 2 gets vorticity 0, as the boundary is left out, and a flow of curl 0 too. *)
Example vorticity_example : let V s := exists a, s = constant a in let u := (field_with 0 (-2), constant 0) : planar in
  contains_constants V /\ positive_weights one_point /\ (forall f Dp, vorticity_solves one_point V Relative u f Dp (constant 0)) /\
  (forall k, curl2 u k = 2) /\ 0 < dx one_point (fun _ => 1) /\
  (forall gamma, V gamma -> dx one_point (fun k => sv gamma k * curl2 zero_planar k) = dx one_point (fun k => - dot2 (perp2d (sg gamma k)) (pv zero_planar k))) /\
  (forall Dp, vorticity_solves one_point V Absolute u (constant 3) Dp (constant 3)) /\
  vorticity_solves one_point V Potential u (constant 3) (constant 2) (constant (3/2)).
Proof.
  cbv zeta. split; [exists 1; reflexivity|]. split; [intros k Hk; cbn; lra|].
  split; [intros f Dp; split; [exists 0; reflexivity|]; intros gamma [a ->]; unfold vorticity_lhs, vorticity_rhs, dx, dot2, perp2d, pv; cbn; ring|].
  split; [intros k; unfold curl2; cbn; ring|]. split; [unfold dx; cbn; lra|].
  split; [intros gamma [a ->]; unfold dx, curl2, dot2, perp2d, pv; cbn; ring|].
  split; [intros Dp; split; [exists 3; reflexivity|]; intros gamma [a ->]; unfold vorticity_lhs, vorticity_rhs, dx, dot2, perp2d, pv; cbn; ring|].
  split; [exists (3/2); reflexivity|]. intros gamma [a ->]; unfold vorticity_lhs, vorticity_rhs, dx, dot2, perp2d, pv; cbn; field.
Qed.
(** precipitation: two cells of height 1/2 above each other, the bottom (facet 0) has area 2; rain falls at rates 3 and 5 *)
Definition two_high : geometry := {| ncp := 2; cw := fun _ => 1; nfp := 1; fw := fun _ => 2; nbp := 2; bw := fun _ => 2 |}.
Definition two_cells : dg0_map := {| cell_of := fun k => k; plus_of := fun _ => 0%nat; minus_of := fun _ => 1%nat; bdry_of := fun b => b |}.
Example precipitation_example : let bottom b := Nat.eqb b 0 in
  bottom_cells 2 two_high two_cells bottom /\
  exists field, precipitation two_high two_cells bottom 2 (1/10) [fun _ => 3; fun _ => 5] field /\ field 0%nat = 8/10 /\ field 1%nat = 0.
Proof.
  cbv zeta. split.
  - split.
    + intros [|[|e]] He; [| |lia]; unfold volume, dx; cbn; lra.
    + intros [|[|b]] Hb Eb; cbn in *; try lia; try discriminate. split; [lia|]. unfold bottom_area, ds_bottom, ds_, indicator. cbn. lra.
  - set (area := fun e : nat => match e with 0%nat => 2 | _ => 0 end).
    assert (HA : area_solves two_high two_cells (fun b => Nat.eqb b 0) 2 area) by (intros [|[|e]] He; [| |lia]; unfold area, ds_bottom, ds_, dx, indicator; cbn; lra).
    assert (HF : forall r, flux_solves two_high two_cells (fun b => Nat.eqb b 0) 2 (1/10) area (fun _ => r) (fun e => match e with 0%nat => r / 10 | _ => 0 end)) by (intros r [|[|e]] He; [| |lia]; unfold area, ds_bottom, ds_, dx, indicator; cbn; field).
    eexists. split; [|].
    + change [fun _ : nat => 3; fun _ => 5] with (([] ++ [fun _ => 3]) ++ [fun _ : nat => 5])%list.
      eapply precipitation_compute; [|exact HA|exact (HF 5)]. eapply precipitation_compute; [apply precipitation_setup|exact HA|exact (HF 3)].
    + cbn. lra.
Qed.
(** tracer density: on the same two cells, a mixing ratio of 2 and density 3 *)
Example tracer_density_example : positive_weights two_high /\ (forall e, (e < 2)%nat -> 0 < volume two_high two_cells e) /\
  (forall k, (k < ncp two_high)%nat -> (cell_of two_cells k < 2)%nat) /\ tracer_density_solves two_high two_cells 2 (constant 2) (constant 3) (fun _ => 6).
Proof.
  split; [intros k Hk; cbn; lra|]. split; [intros [|[|e]] He; [| |lia]; unfold volume, dx; cbn; lra|]. split; [intros k Hk; exact Hk|].
  intros [|[|e]] He; [| |lia]; unfold dx, indicator; cbn; lra.
Qed.
