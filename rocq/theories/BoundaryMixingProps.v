(** C133: boundary-layer mixing. *)
From Coq Require Import String Lra.
From Verif Require Import Base Vec Thermo Microphysics BoundaryLayer Transport CommonForms Compressible TransportProps EquationsProps CommonFormsProps DiagFormsProps BoundaryMixing.
Open Scope R_scope.

(** ** The coefficient *)
Definition sensible (B : blparams) : Prop := 0 <= C_D0 B /\ 0 <= C_D1 B /\ 0 <= C_D2 B /\ 0 <= C_E B /\ 0 < z_a B.
Lemma drag_nonneg B s : sensible B -> 0 <= s -> 0 <= drag_coefficient B s.
Proof. intros (H0 & H1 & H2 & _) Hs. unfold drag_coefficient, cond. destruct (Rlt_dec s 20); nra. Qed.
Definition surface_value (B : blparams) (name : string) (s : R) : R := (if String.eqb name "u" then drag_coefficient B s else C_E B) * s * z_a B.
Lemma surface_nonneg B name s : sensible B -> 0 <= s -> 0 <= surface_value B name s.
Proof.
  intros H Hs. unfold surface_value. assert (0 <= if String.eqb name "u" then drag_coefficient B s else C_E B) by (destruct (String.eqb name "u"); [apply drag_nonneg; assumption|apply H]).
  destruct H as (_ & _ & _ & _ & Hz). apply Rmult_le_pos; [apply Rmult_le_pos|]; lra.
Qed.
Lemma damping_bounds p : 0 < exp (- ((p_top - p) / p_strato) ^ 2) <= 1.
Proof.
  split; [apply exp_pos|]. rewrite <- exp_0. assert (H : - ((p_top - p) / p_strato) ^ 2 <= 0) by (pose proof (pow2_ge_0 ((p_top - p) / p_strato)); lra).
  destruct H as [H|H]; [left; apply exp_increasing; exact H|rewrite H; right; reflexivity].
Qed.
Lemma diffusivity_eq B name s p : diffusivity B name s p = surface_value B name s * (if Rlt_dec p_top p then 1 else exp (- ((p_top - p) / p_strato) ^ 2)).
Proof. unfold diffusivity, surface_value, cond. destruct (Rlt_dec p_top p); ring. Qed.

(** The coefficient is not negative and at most its value at the surface; it has that value from 850 hPa downwards, does not increase upwards
    (with falling pressure) and is positive where there is wind *)
Theorem mixing_coefficient : forall B name s, sensible B -> 0 <= s ->
  (forall p, 0 <= diffusivity B name s p <= surface_value B name s) /\
  (forall p, p_top <= p -> diffusivity B name s p = surface_value B name s) /\
  (forall p p', p <= p' -> diffusivity B name s p <= diffusivity B name s p') /\
  (0 < surface_value B name s -> forall p, 0 < diffusivity B name s p).
Proof.
  intros B name s HB Hs. pose proof (surface_nonneg B name s HB Hs) as H0. repeat split.
  - rewrite diffusivity_eq. pose proof (damping_bounds p) as Hd. destruct (Rlt_dec p_top p); nra.
  - rewrite diffusivity_eq. pose proof (damping_bounds p) as Hd. destruct (Rlt_dec p_top p); nra.
  - intros p Hp. rewrite diffusivity_eq. destruct (Rlt_dec p_top p) as [|Hn]; [ring|]. replace p with p_top by lra.
    replace (- ((p_top - p_top) / p_strato) ^ 2) with 0 by (unfold p_strato; field). rewrite exp_0. ring.
  - intros p p' Hp. rewrite !diffusivity_eq. apply Rmult_le_compat_l; [exact H0|]. pose proof (damping_bounds p) as Hd.
    destruct (Rlt_dec p_top p) as [|Hn], (Rlt_dec p_top p') as [|Hn']; try lra. assert (E : ((p_top - p') / p_strato) ^ 2 <= ((p_top - p) / p_strato) ^ 2).
    { apply pow_incr. unfold p_strato. split; [|]; unfold Rdiv; [apply Rmult_le_pos; lra|apply Rmult_le_compat_r; lra]. }
    destruct (Rle_lt_or_eq_dec _ _ E) as [H|H]; [left; apply exp_increasing; lra|right; rewrite H; reflexivity].
  - intros Hp p. rewrite diffusivity_eq. pose proof (damping_bounds p) as Hd. destruct (Rlt_dec p_top p); nra.
Qed.
(** The drag law has no jump at 20 m/s when the constants fit, as the default ones do: it is then Lipschitz in the wind speed *)
Theorem drag_law_continuous : forall B, 0 <= C_D1 B -> C_D0 B + C_D1 B * 20 = C_D2 B ->
  forall s s', Rabs (drag_coefficient B s - drag_coefficient B s') <= C_D1 B * Rabs (s - s').
Proof.
  intros B H1 HE. assert (W : forall s s', s <= s' -> Rabs (drag_coefficient B s - drag_coefficient B s') <= C_D1 B * Rabs (s - s')).
  { intros s s' Hs. rewrite (Rabs_minus_sym s s'), (Rabs_pos_eq (s' - s)) by lra. rewrite Rabs_minus_sym. unfold drag_coefficient, cond.
    assert (0 <= C_D1 B * (s' - s)) by (apply Rmult_le_pos; lra).
    destruct (Rlt_dec s 20), (Rlt_dec s' 20); try lra; rewrite Rabs_pos_eq; nra. }
  intros s s'. destruct (Rle_or_lt s s'); [apply W; assumption|]. rewrite Rabs_minus_sym, (Rabs_minus_sym s s'). apply W. lra.
Qed.
Example default_drag : C_D0 default_bl + C_D1 default_bl * 20 = C_D2 default_bl /\ sensible default_bl.
Proof. unfold sensible. cbn. lra. Qed.
(** Refuted for other constants: with the drag constant above 20 m/s left as it is and a larger one below, the coefficient jumps *)
Theorem drag_law_jump_refuted : exists B, sensible B /\ forall eps, 0 < eps -> exists s s', Rabs (s - s') < eps /\ 1 / 1000 <= Rabs (drag_coefficient B s - drag_coefficient B s').
Proof.
  exists {| C_D0 := 0.002; C_D1 := 0.000065; C_D2 := 0.002; C_H := 0; C_E := 0; z_a := 1 |}. split; [unfold sensible; cbn; lra|].
  intros eps He. exists 20, (20 - Rmin (eps / 2) 1). pose proof (Rmin_l (eps/2) 1). pose proof (Rmin_r (eps/2) 1). assert (0 < Rmin (eps/2) 1) by (apply Rmin_glb_lt; lra).
  split; [rewrite Rabs_pos_eq; lra|]. unfold drag_coefficient, cond. cbn [C_D0 C_D1 C_D2]. destruct (Rlt_dec 20 20); [lra|]. destruct (Rlt_dec _ 20); [|lra]. rewrite Rabs_left1; lra.
Qed.

(** ** The form *)
Section Props.
Variables (G : geometry) (d : nat) (vertical : nat -> bool) (np nm kc kf : nat -> nat -> R).
(** an extruded mesh: unit vertical, facets between columns have horizontal, opposite unit normals *)
Record extruded : Prop := {
  x_kc : forall c, (c < ncp G)%nat -> dot d (kc c) (kc c) = 1;
  x_kf : forall f, (f < nfp G)%nat -> dot d (kf f) (kf f) = 1;
  x_n : forall f, (f < nfp G)%nat -> vertical f = true -> dot d (np f) (np f) = 1 /\ dot d (np f) (kf f) = 0;
  x_opp : forall f i, (f < nfp G)%nat -> nm f i = - np f i }.
(** vertical derivative of a scalar field, specification *)
Definition dz_of (k : nat -> R) (q : spoint) : R := dot d (s_grad q) k.
Lemma dot_scal_l a x y : dot d (fun i => a * x i) y = a * dot d x y.
Proof. unfold dot. rewrite <- rsum_scal. apply rsum_ext. intros; ring. Qed.
Lemma dot_scal_r a x y : dot d x (fun i => a * y i) = a * dot d x y.
Proof. rewrite dot_comm, dot_scal_l, dot_comm. reflexivity. Qed.
Lemma dot_ext x x' y y' : (forall i, (i < d)%nat -> x i = x' i) -> (forall i, (i < d)%nat -> y i = y' i) -> dot d x y = dot d x' y'.
Proof. intros Hx Hy. unfold dot. apply rsum_ext. intros i Hi. rewrite Hx, Hy by exact Hi. reflexivity. Qed.
Lemma dot_add_l x y z : dot d (fun i => x i + y i) z = dot d x z + dot d y z.
Proof. unfold dot. rewrite <- rsum_add. apply rsum_ext. intros; ring. Qed.
Hypothesis X : extruded.
(** difference across a facet *)
Definition jump (q : placed R) (f : nat) : R := at_plus q f - at_minus q f.
Lemma avg_n_eq q f i : (f < nfp G)%nat -> avg_n np nm q f i = 1/2 * jump q f * np f i.
Proof. intros Hf. unfold avg_n, avg_of, jump. rewrite (x_opp X f i Hf). ring. Qed.
Lemma avg_dz_eq q f i : avg_dz d kf q f i = avg_of (dz_of (kf f) (at_plus q f)) (dz_of (kf f) (at_minus q f)) * kf f i.
Proof. unfold avg_dz, d_dz, dz_of, avg_of. ring. Qed.
Lemma n_dz q r f : (f < nfp G)%nat -> vertical f = true -> dot d (avg_n np nm q f) (avg_dz d kf r f) = 0.
Proof.
  intros Hf Hv. rewrite (dot_ext _ (fun i => (1/2 * jump q f) * np f i) _ (fun i => avg_of (dz_of (kf f) (at_plus r f)) (dz_of (kf f) (at_minus r f)) * kf f i)) by (intros; first [apply avg_dz_eq|apply avg_n_eq; exact Hf]).
  rewrite dot_scal_l, dot_scal_r. destruct (x_n X f Hf Hv) as [_ ->]. ring.
Qed.
Lemma n_n q r f : (f < nfp G)%nat -> vertical f = true -> dot d (avg_n np nm q f) (avg_n np nm r f) = 1/4 * (jump q f * jump r f).
Proof.
  intros Hf Hv. rewrite (dot_ext _ (fun i => (1/2 * jump q f) * np f i) _ (fun i => (1/2 * jump r f) * np f i)) by (intros; apply avg_n_eq; exact Hf).
  rewrite dot_scal_l, dot_scal_r. destruct (x_n X f Hf Hv) as [-> _]. field.
Qed.
Lemma dz_dz c q r : (c < ncp G)%nat -> dot d (d_dz d (kc c) q) (d_dz d (kc c) r) = dz_of (kc c) q * dz_of (kc c) r.
Proof.
  intros Hc. unfold d_dz. fold (dz_of (kc c) q) (dz_of (kc c) r). rewrite (dot_ext _ (fun i => dz_of (kc c) q * kc c i) _ (fun i => dz_of (kc c) r * kc c i)) by (intros; ring).
  rewrite dot_scal_l, dot_scal_r, (x_kc X c Hc). ring.
Qed.
Lemma dS_v_ext_in g h : (forall f, (f < nfp G)%nat -> vertical f = true -> g f = h f) -> dS_v G vertical g = dS_v G vertical h.
Proof. intros H. unfold dS_v, dS_. apply rsum_ext. intros f Hf. destruct (vertical f) eqn:E; [rewrite H by assumption|]; reflexivity. Qed.

(** What the form comes to: vertical diffusion inside the cells, and an exchange between NEIGHBOURING COLUMNS *)
Theorem mixing_form : forall mu dz rho K test field,
  mixing_source G d vertical np nm kc kf mu dz rho K test field =
  dx G (fun c => s_val (at_cell rho c) * s_val (at_cell K c) * (dz_of (kc c) (squot (at_cell test c) (at_cell rho c)) * dz_of (kc c) (at_cell field c)))
  + dS_v G vertical (fun f => mu * avg_of (at_plus dz f) (at_minus dz f) * (jump (values (times K field)) f * jump (values test) f)).
Proof.
  intros. unfold mixing_source. f_equal.
  - apply dx_in. intros c Hc. rewrite dz_dz by exact Hc. reflexivity.
  - apply dS_v_ext_in. intros f Hf Hv. rewrite !n_dz, n_n by assumption. field.
Qed.

(** *** Totals, dissipation, uniform fields *)
(** the same on both sides of the facets between columns *)
Definition across (q : placed R) : Prop := forall f, (f < nfp G)%nat -> vertical f = true -> at_plus q f = at_minus q f.
Lemma dx_0_in g : (forall c, (c < ncp G)%nat -> g c = 0) -> dx G g = 0.
Proof. intros H. unfold dx. apply rsum_0. intros c Hc. rewrite H by exact Hc. ring. Qed.
Lemma dS_v_0 g : (forall f, (f < nfp G)%nat -> vertical f = true -> g f = 0) -> dS_v G vertical g = 0.
Proof. intros H. unfold dS_v, dS_. apply rsum_0. intros f Hf. destruct (vertical f) eqn:E; [rewrite H by assumption|]; ring. Qed.
Lemma dz_self k q : s_val q <> 0 -> dz_of k (squot q q) = 0.
Proof.
  intros Hq. unfold dz_of, dot. apply rsum_0. intros i _. cbn [squot s_grad]. replace (s_grad q i / s_val q - s_val q * s_grad q i / s_val q ^ 2) with 0 by (field; exact Hq). ring.
Qed.
(** The density-weighted total of the field is kept: the source tested with the density vanishes, if the recovered density is the same
    on both sides of the facets between columns *)
Theorem mixing_keeps_total : forall mu dz rho K field, (forall c, (c < ncp G)%nat -> s_val (at_cell rho c) <> 0) -> across (values rho) ->
  mixing_source G d vertical np nm kc kf mu dz rho K rho field = 0.
Proof.
  intros mu dz rho K field Hr Ha. rewrite mixing_form, dx_0_in, dS_v_0; [ring| |].
  - intros f Hf Hv. unfold jump. rewrite (Ha f Hf Hv). ring.
  - intros c Hc. rewrite dz_self by (apply Hr; exact Hc). ring.
Qed.
(** The density-weighted variance does not grow: the source tested with rho*field is not negative (the field changes at minus that rate), if density and
    coefficient are the same on both sides of the facets between columns *)
Theorem mixing_dissipates : forall mu dz rho B name s p gK field, sensible B -> 0 <= mu ->
  (forall f, (f < nfp G)%nat -> 0 <= at_plus dz f /\ 0 <= at_minus dz f) ->
  (forall c, (c < ncp G)%nat -> 0 <= cw G c) -> (forall f, (f < nfp G)%nat -> 0 <= fw G f) ->
  (forall c, (c < ncp G)%nat -> 0 < s_val (at_cell rho c)) -> (forall f, (f < nfp G)%nat -> 0 < s_val (at_plus rho f)) -> across (values rho) ->
  (forall c, (c < ncp G)%nat -> 0 <= at_cell s c) -> (forall f, (f < nfp G)%nat -> 0 <= at_plus s f) -> across s -> across p ->
  0 <= mixing_source G d vertical np nm kc kf mu dz rho (K_field B name s p gK) (times rho field) field.
Proof.
  intros mu dz rho B name s p gK field HB Hmu Hdz Hcw Hfw Hrc Hrp Hra Hsc Hsp Hsa Hpa. rewrite mixing_form. apply Rplus_le_le_0_compat.
  - apply dx_nonneg; [exact Hcw|]. intros c Hc. cbn [K_field at_cell s_val].
    assert (E : dz_of (kc c) (squot (at_cell (times rho field) c) (at_cell rho c)) = dz_of (kc c) (at_cell field c)).
    { unfold dz_of, dot. apply rsum_ext. intros i _. cbn [times at_cell squot sprod s_grad s_val]. pose proof (Hrc c Hc). field. lra. }
    rewrite E. pose proof (Hrc c Hc). destruct (mixing_coefficient B name (at_cell s c) HB (Hsc c Hc)) as (HK & _). destruct (HK (at_cell p c)) as [HK0 _].
    apply Rmult_le_pos; [apply Rmult_le_pos; lra|apply Rle_0_sqr].
  - unfold dS_v, dS_. apply wsum_nonneg. intros f Hf. split; [apply Hfw; exact Hf|]. destruct (vertical f) eqn:Hv; [|lra]. destruct (Hdz f Hf) as [Hd1 Hd2].
    apply Rmult_le_pos; [apply Rmult_le_pos; [exact Hmu|unfold avg_of; lra]|]. unfold jump. cbn [K_field times values at_plus at_minus s_val sprod].
    pose proof (Hsa f Hf Hv) as Es. pose proof (Hpa f Hf Hv) as Ep. pose proof (Hra f Hf Hv) as Er. cbn [values at_plus at_minus] in Er. rewrite <- Es, <- Ep, <- Er.
    destruct (mixing_coefficient B name (at_plus s f) HB (Hsp f Hf)) as (HK & _). destruct (HK (at_plus p f)) as [HK0 _]. pose proof (Hrp f Hf).
    set (k0 := diffusivity B name (at_plus s f) (at_plus p f)) in *. set (a := s_val (at_plus field f)). set (b := s_val (at_minus field f)).
    replace ((k0 * a - k0 * b) * (s_val (at_plus rho f) * a - s_val (at_plus rho f) * b)) with (k0 * s_val (at_plus rho f) * ((a - b) * (a - b))) by ring.
    apply Rmult_le_pos; [apply Rmult_le_pos; lra|apply Rle_0_sqr].
Qed.
(** A field that is uniform stays as it is, if the coefficient is the same on both sides of the facets between columns *)
Definition uniform (a : R) : placed spoint :=
  let u := {| s_val := a; s_grad := fun _ => 0 |} in {| at_cell := fun _ => u; at_plus := fun _ => u; at_minus := fun _ => u |}.
Lemma dz_uniform k a c : dz_of k (at_cell (uniform a) c) = 0.
Proof. unfold dz_of, dot. apply rsum_0. intros i _. cbn. ring. Qed.
Theorem mixing_uniform : forall mu dz rho K a test, across (values K) -> mixing_source G d vertical np nm kc kf mu dz rho K test (uniform a) = 0.
Proof.
  intros mu dz rho K a test Ha. rewrite mixing_form, dx_0_in, dS_v_0; [ring| |].
  - intros f Hf Hv. unfold jump. pose proof (Ha f Hf Hv) as E. cbn [values at_plus at_minus] in E. cbn [values times uniform at_plus at_minus sprod s_val]. rewrite E. ring.
  - intros c Hc. rewrite dz_uniform. ring.
Qed.
(** Layers are not coupled: what the field does across the facets between layers plays no role *)
Theorem mixing_ignores_layer_facets : forall mu dz rho K test field field',
  (forall c, (c < ncp G)%nat -> at_cell field c = at_cell field' c) ->
  (forall f, (f < nfp G)%nat -> vertical f = true -> at_plus field f = at_plus field' f /\ at_minus field f = at_minus field' f) ->
  mixing_source G d vertical np nm kc kf mu dz rho K test field = mixing_source G d vertical np nm kc kf mu dz rho K test field'.
Proof.
  intros mu dz rho K test field field' Hc Hf. rewrite !mixing_form. f_equal.
  - apply dx_in. intros c H. rewrite (Hc c H). reflexivity.
  - apply dS_v_ext_in. intros f H Hv. destruct (Hf f H Hv) as [E1 E2]. unfold jump. cbn [values times at_plus at_minus sprod s_val]. rewrite E1, E2. reflexivity.
Qed.

(** The form is symmetric in the field and the test function where the density and the coefficient are uniform, whatever the mesh is like *)
Lemma cell_uniform_quot c a test i : a <> 0 -> d_dz d (kc c) (squot (at_cell test c) (at_cell (uniform a) c)) i = d_dz d (kc c) (at_cell test c) i / a.
Proof.
  intros Ha. unfold d_dz. rewrite (dot_ext (s_grad (squot (at_cell test c) (at_cell (uniform a) c))) (fun j => / a * s_grad (at_cell test c) j) (kc c) (kc c)); [|intros j _; cbn; field; exact Ha|reflexivity].
  rewrite dot_scal_l. field. exact Ha.
Qed.
Lemma avg_n_times a q f i : avg_n np nm (values (times (uniform a) q)) f i = a * avg_n np nm (values q) f i.
Proof. unfold avg_n, avg_of. cbn. ring. Qed.
Lemma avg_dz_times a q f i : avg_dz d kf (times (uniform a) q) f i = a * avg_dz d kf q f i.
Proof.
  assert (E : forall p : spoint, dot d (s_grad (sprod {| s_val := a; s_grad := fun _ => 0 |} p)) (kf f) = a * dot d (s_grad p) (kf f)).
  { intros p. rewrite <- dot_scal_l. apply dot_ext; [intros j _; cbn; ring|reflexivity]. }
  unfold avg_dz, avg_of, d_dz. cbn [times at_plus at_minus uniform]. rewrite !E. ring.
Qed.
Theorem mixing_symmetric : forall mu dz a b test field, a <> 0 ->
  mixing_source G d vertical np nm kc kf mu dz (uniform a) (uniform b) test field = mixing_source G d vertical np nm kc kf mu dz (uniform a) (uniform b) field test.
Proof.
  intros mu dz a b test field Ha. unfold mixing_source. f_equal.
  - apply dx_in. intros c _. rewrite !(dot_ext (d_dz d (kc c) (squot _ _)) (fun i => / a * d_dz d (kc c) _ i) _ _ (fun i _ => eq_trans (cell_uniform_quot c a _ i Ha) (Rmult_comm _ _)) (fun i _ => eq_refl)).
    rewrite !dot_scal_l, (dot_comm d (d_dz d (kc c) (at_cell test c))). reflexivity.
  - apply dS_v_ext_in. intros f _ _.
    rewrite !(dot_ext (avg_n np nm (values (times (uniform b) _)) f) (fun i => b * avg_n np nm (values _) f i) _ _ (fun i _ => avg_n_times b _ f i) (fun i _ => eq_refl)).
    rewrite !(dot_ext _ _ (avg_dz d kf (times (uniform b) _) f) (fun i => b * avg_dz d kf _ f i) (fun i _ => eq_refl) (fun i _ => avg_dz_times b _ f i)).
    rewrite !dot_scal_l, !dot_scal_r, (dot_comm d (avg_n np nm (values test) f) (avg_n np nm (values field) f)). ring.
Qed.

(** *** Vector fields *)
(** vertical derivative of a vector field *)
Definition vdz_of (k : nat -> R) (q : vpoint) (j : nat) : R := dot d (v_grad q j) k.
Definition vjump (q : placed vpoint) (f i : nat) : R := v_val (at_plus q f) i - v_val (at_minus q f) i.
Definition avg_vdz (q : placed vpoint) (f j : nat) : R := avg_of (vdz_of (kf f) (at_plus q f) j) (vdz_of (kf f) (at_minus q f) j).
Lemma inner_outer a b x y : inner d (fun i j => a i * b j) (fun i j => x i * y j) = dot d a x * dot d b y.
Proof.
  unfold inner. rewrite (rsum_ext d _ (fun i => dot d b y * (a i * x i))).
  - rewrite rsum_scal. unfold dot. ring.
  - intros i _. rewrite dot_scal_l, dot_scal_r. ring.
Qed.
Lemma inner_ext a a' b b' : (forall i j, (i < d)%nat -> (j < d)%nat -> a i j = a' i j) -> (forall i j, (i < d)%nat -> (j < d)%nat -> b i j = b' i j) -> inner d a b = inner d a' b'.
Proof. intros Ha Hb. unfold inner. apply rsum_ext. intros i Hi. apply dot_ext; intros j Hj; [apply Ha|apply Hb]; assumption. Qed.
Lemma v_n_dz q r f : (f < nfp G)%nat -> inner d (vavg_n np nm q f) (vavg_dz d kf r f) = 1/2 * dot d (vjump q f) (kf f) * dot d (np f) (avg_vdz r f).
Proof.
  intros Hf. rewrite (inner_ext _ (fun i j => (1/2 * vjump q f i) * np f j) _ (fun i j => kf f i * avg_vdz r f j)).
  - rewrite inner_outer, dot_scal_l. reflexivity.
  - intros i j _ _. unfold vavg_n, avg_of, vjump. rewrite (x_opp X f j Hf). ring.
  - intros i j _ _. unfold vavg_dz, v_dz, avg_vdz, vdz_of, avg_of. ring.
Qed.
Lemma v_n_n q r f : (f < nfp G)%nat -> vertical f = true -> inner d (vavg_n np nm q f) (vavg_n np nm r f) = 1/4 * dot d (vjump q f) (vjump r f).
Proof.
  intros Hf Hv. rewrite (inner_ext _ (fun i j => (1/2 * vjump q f i) * np f j) _ (fun i j => (1/2 * vjump r f i) * np f j)).
  - rewrite inner_outer, dot_scal_l, dot_scal_r. destruct (x_n X f Hf Hv) as [-> _]. field.
  - intros i j _ _. unfold vavg_n, avg_of, vjump. rewrite (x_opp X f j Hf). ring.
  - intros i j _ _. unfold vavg_n, avg_of, vjump. rewrite (x_opp X f j Hf). ring.
Qed.
Lemma v_dz_dz c q r : (c < ncp G)%nat -> inner d (v_dz d (kc c) q) (v_dz d (kc c) r) = dot d (vdz_of (kc c) q) (vdz_of (kc c) r).
Proof. intros Hc. transitivity (inner d (fun i j => kc c i * vdz_of (kc c) q j) (fun i j => kc c i * vdz_of (kc c) r j)); [reflexivity|]. rewrite inner_outer, (x_kc X c Hc). ring. Qed.
Definition horizontal_field (q : placed vpoint) : Prop :=
  (forall c, (c < ncp G)%nat -> dot d (v_val (at_cell q c)) (kc c) = 0) /\
  forall f, (f < nfp G)%nat -> dot d (v_val (at_plus q f)) (kf f) = 0 /\ dot d (v_val (at_minus q f)) (kf f) = 0.
Lemma vjump_h q f : horizontal_field q -> (f < nfp G)%nat -> dot d (vjump q f) (kf f) = 0.
Proof.
  intros [_ H] Hf. destruct (H f Hf) as [H1 H2]. unfold vjump. rewrite (dot_ext _ (fun i => v_val (at_plus q f) i + (-1) * v_val (at_minus q f) i) _ (kf f)) by (intros; ring).
  rewrite dot_add_l, dot_scal_l, H1, H2. ring.
Qed.
Lemma vtimes_h K q : horizontal_field q -> horizontal_field (vtimes_p K q).
Proof.
  intros [Hc Hf]. split.
  - intros c H. cbn [vtimes_p at_cell vtimes v_val]. rewrite dot_scal_l, (Hc c H). ring.
  - intros f H. destruct (Hf f H) as [H1 H2]. cbn [vtimes_p at_plus at_minus vtimes v_val]. rewrite !dot_scal_l, H1, H2. split; ring.
Qed.
(** For a horizontal field (l.654-656) one of the consistency terms is left on the facets between columns: its factors are the vertical part of the test
    function and the vertical shear normal to the facet *)
Theorem mixing_form_u : forall mu dz rho K test field, horizontal_field field ->
  mixing_source_v G d vertical np nm kc kf mu dz rho K test field =
  dx G (fun c => s_val (at_cell rho c) * s_val (at_cell K c) * dot d (vdz_of (kc c) (vquot (at_cell test c) (at_cell rho c))) (vdz_of (kc c) (at_cell field c)))
  + dS_v G vertical (fun f => mu * avg_of (at_plus dz f) (at_minus dz f) * dot d (vjump (vtimes_p K field) f) (vjump test f)
                              - dot d (vjump test f) (kf f) * dot d (np f) (avg_vdz (vtimes_p K field) f)).
Proof.
  intros mu dz rho K test field Hh. unfold mixing_source_v. f_equal.
  - apply dx_in. intros c Hc. rewrite v_dz_dz by exact Hc. reflexivity.
  - apply dS_v_ext_in. intros f Hf Hv. rewrite !v_n_dz, v_n_n by assumption. rewrite (vjump_h _ f (vtimes_h K field Hh) Hf). field.
Qed.
(** For horizontal test functions nothing but diffusion and the exchange between columns is left *)
Theorem mixing_form_u_horizontal : forall mu dz rho K test field, horizontal_field field -> horizontal_field test ->
  mixing_source_v G d vertical np nm kc kf mu dz rho K test field =
  dx G (fun c => s_val (at_cell rho c) * s_val (at_cell K c) * dot d (vdz_of (kc c) (vquot (at_cell test c) (at_cell rho c))) (vdz_of (kc c) (at_cell field c)))
  + dS_v G vertical (fun f => mu * avg_of (at_plus dz f) (at_minus dz f) * dot d (vjump (vtimes_p K field) f) (vjump test f)).
Proof.
  intros mu dz rho K test field Hh Ht. rewrite mixing_form_u by exact Hh. f_equal. apply dS_v_ext_in. intros f Hf Hv. rewrite (vjump_h test f Ht Hf). ring.
Qed.
(** The energy of the horizontal wind does not grow under the same conditions *)
Definition weighted (rho : placed spoint) (q : placed vpoint) : placed vpoint := vtimes_p rho q.
Theorem mixing_dissipates_u : forall mu dz rho B s p gK field, horizontal_field field -> sensible B -> 0 <= mu ->
  (forall f, (f < nfp G)%nat -> 0 <= at_plus dz f /\ 0 <= at_minus dz f) ->
  (forall c, (c < ncp G)%nat -> 0 <= cw G c) -> (forall f, (f < nfp G)%nat -> 0 <= fw G f) ->
  (forall c, (c < ncp G)%nat -> 0 < s_val (at_cell rho c)) -> (forall f, (f < nfp G)%nat -> 0 < s_val (at_plus rho f)) -> across (values rho) ->
  (forall c, (c < ncp G)%nat -> 0 <= at_cell s c) -> (forall f, (f < nfp G)%nat -> 0 <= at_plus s f) -> across s -> across p ->
  0 <= mixing_source_v G d vertical np nm kc kf mu dz rho (K_field B "u" s p gK) (weighted rho field) field.
Proof.
  intros mu dz rho B s p gK field Hh HB Hmu Hdz Hcw Hfw Hrc Hrp Hra Hsc Hsp Hsa Hpa. rewrite mixing_form_u_horizontal by (try apply vtimes_h; exact Hh). apply Rplus_le_le_0_compat.
  - apply dx_nonneg; [exact Hcw|]. intros c Hc. cbn [K_field at_cell s_val].
    rewrite (dot_ext _ (vdz_of (kc c) (at_cell field c)) _ (vdz_of (kc c) (at_cell field c))); [| |reflexivity].
    + pose proof (Hrc c Hc). destruct (mixing_coefficient B "u" (at_cell s c) HB (Hsc c Hc)) as (HK & _). destruct (HK (at_cell p c)) as [HK0 _].
      apply Rmult_le_pos; [apply Rmult_le_pos; lra|apply dot_self].
    + intros i _. unfold vdz_of. apply dot_ext; [|reflexivity]. intros j _. cbn [weighted vtimes_p at_cell vquot vtimes v_grad v_val]. pose proof (Hrc c Hc). field. lra.
  - unfold dS_v, dS_. apply wsum_nonneg. intros f Hf. split; [apply Hfw; exact Hf|]. destruct (vertical f) eqn:Hv; [|lra]. destruct (Hdz f Hf) as [Hd1 Hd2].
    apply Rmult_le_pos; [apply Rmult_le_pos; [exact Hmu|unfold avg_of; lra]|].
    pose proof (Hsa f Hf Hv) as Es. pose proof (Hpa f Hf Hv) as Ep. pose proof (Hra f Hf Hv) as Er. cbn [values at_plus at_minus] in Er.
    destruct (mixing_coefficient B "u" (at_plus s f) HB (Hsp f Hf)) as (HK & _). destruct (HK (at_plus p f)) as [HK0 _]. pose proof (Hrp f Hf) as Hrp'.
    set (k0 := diffusivity B "u" (at_plus s f) (at_plus p f)) in *.
    rewrite (dot_ext _ (fun i => k0 * vjump field f i) _ (fun i => s_val (at_plus rho f) * vjump field f i)).
    + rewrite dot_scal_l, dot_scal_r. apply Rmult_le_pos; [lra|]. apply Rmult_le_pos; [lra|apply dot_self].
    + intros i _. unfold vjump. cbn [weighted vtimes_p K_field at_plus at_minus vtimes v_val s_val]. rewrite <- Es, <- Ep. fold k0. ring.
    + intros i _. unfold vjump. cbn [weighted vtimes_p at_plus at_minus vtimes v_val]. rewrite <- Er. ring.
Qed.
End Props.

(** The "cell height" of the penalty (l.643-645) is 1 whatever the mesh: k is a unit vector and g the gradient of dot(k, xyz).  Refuted with it: "the penalty scales
    with the depth of the layers" *)
Theorem mixing_height_refuted : forall d k g, dot d k k = 1 ->
  (forall x v, dot d k (fun i => x i + v i) - dot d k x = dot d g v) (* gradient of the linear function dot(k, .) *) -> cell_height d k g = 1.
Proof.
  intros d k g H Hg. specialize (Hg (fun _ => 0) k). assert (E : dot d g k = 1).
  { rewrite <- Hg, (dot_comm d k (fun i => 0 + k i)), (dot_ext d (fun i => 0 + k i) k k k) by (intros; ring). rewrite H. unfold dot. rewrite rsum_0 by (intros; ring). ring. }
  unfold cell_height. rewrite E. rewrite (dot_ext d k k _ k) by (intros; ring). exact H.
Qed.

(** ** Labels and outcomes *)
(** only for the compressible Euler equations, only for one of its fields; schemes for different fields have different labels; never with an output source *)
Theorem mixing_construction : forall ce fields name,
  (is_ok (mixing_label ce fields name) <-> ce = true /\ In name fields) /\
  (forall name' l, mixing_label ce fields name = Ok l -> mixing_label ce fields name' = Ok l -> name = name').
Proof.
  assert (HX : forall fields name, existsb (String.eqb name) fields = true <-> In name fields).
  { intros fields name. rewrite existsb_exists. split; [intros (x & H & E); apply String.eqb_eq in E; subst; exact H|intros H; exists name; split; [exact H|apply String.eqb_refl]]. }
  intros ce fields name. unfold mixing_label. split.
  - destruct ce; cbn [negb]; [|split; [intros [? H]; discriminate|intros [H _]; discriminate]]. destruct (existsb (String.eqb name) fields) eqn:E; cbn [negb].
    + split; [intros _; split; [reflexivity|apply HX; exact E]|intros _; eexists; reflexivity].
    + split; [intros [? H]; discriminate|intros [_ H]; apply HX in H; congruence].
  - intros name' l H H'. destruct ce; cbn [negb] in *; [|discriminate]. destruct (existsb (String.eqb name) fields), (existsb (String.eqb name') fields); cbn [negb] in *; try discriminate.
    injection H as <-. injection H' as H'. congruence.
Qed.
Theorem mixing_needs_split_physics : forall (X : Type) (x y : X),
  snd (mixing_evaluate x None) = Ok tt /\ snd (mixing_evaluate x (Some y)) = Err NotImplementedError /\ fst (mixing_evaluate x None) = x.
Proof. intros. repeat split. Qed.

(** ** Examples and refutations: two cells, one beside the other or one above the other, in the plane *)
Definition two : geometry := {| ncp := 2; cw := fun _ => 1; nfp := 1; fw := fun _ => 1; nbp := 0; bw := fun _ => 1 |}.
Definition up : nat -> nat -> R := fun _ i => match i with 1%nat => 1 | _ => 0 end.
Definition right : nat -> nat -> R := fun _ i => match i with 0%nat => 1 | _ => 0 end.
Definition left_ : nat -> nat -> R := fun _ i => - right 0 i.
Definition flat (a b : R) : placed spoint :=
  let p v := {| s_val := v; s_grad := fun _ => 0 |} in {| at_cell := fun c => p (match c with 0%nat => a | _ => b end); at_plus := fun _ => p a; at_minus := fun _ => p b |}.
Definition pair_of (a b : R) : placed R := {| at_cell := fun c => match c with 0%nat => a | _ => b end; at_plus := fun _ => a; at_minus := fun _ => b |}.
Definition no_grad : placed (nat -> R) := {| at_cell := fun _ _ => 0; at_plus := fun _ _ => 0; at_minus := fun _ _ => 0 |}.
Definition side_by_side (f : nat) : bool := true.
Definition stacked (f : nat) : bool := false.
Lemma two_columns : extruded two 2 side_by_side right left_ up up.
Proof. constructor; intros; [| |split|]; unfold dot, up, right, left_; cbn; try ring. reflexivity. Qed.
Lemma two_layers : extruded two 2 stacked up (fun f i => - up f i) up up.
Proof. constructor; intros; try discriminate; unfold dot, up; cbn; try ring. Qed.
Definition source_beside := mixing_source two 2 side_by_side right left_ up up.
Definition K_beside (s : placed R) : placed spoint := K_field default_bl "theta" s (pair_of 90000 90000) no_grad.
Lemma K_near s : diffusivity default_bl "theta" s 90000 = 0.0011 * s * 75.
Proof. unfold diffusivity, cond, p_top. cbn. destruct (Rlt_dec 85000 90000); [reflexivity|lra]. Qed.
Lemma beside_eq mu s1 s2 rho a b t0 t1 : source_beside mu (pair_of 1 1) rho (K_beside (pair_of s1 s2)) (flat t0 t1) (flat a b) = mu * (0.0825 * (s1 * a - s2 * b)) * (t0 - t1).
Proof.
  unfold source_beside. rewrite (mixing_form _ _ _ _ _ _ _ two_columns). rewrite dx_0_in.
  - unfold dS_v, dS_, jump, avg_of. cbn. rewrite !K_near. replace 0.0011 with (11 / 10000) by lra. replace 0.0825 with (825 / 10000) by lra. field.
  - intros c Hc. replace (dz_of 2 (up c) (at_cell (flat a b) c)) with 0; [ring|]. unfold dz_of, dot. cbn. ring.
Qed.

(** a case in which the theorems apply: two columns with the same wind, theta falling upwards in both *)
Definition falling : placed spoint :=
  let p v := {| s_val := v; s_grad := fun i => match i with 1%nat => -1 | _ => 0 end |} in {| at_cell := fun c => p 300; at_plus := fun _ => p 300; at_minus := fun _ => p 300 |}.
Example mixing_example : extruded two 2 side_by_side right left_ up up /\ across two side_by_side (values (K_beside (pair_of 5 5))) /\
  0 < source_beside 100 (pair_of 1 1) (flat 1 1) (K_beside (pair_of 5 5)) falling falling.
Proof.
  split; [exact two_columns|]. split; [intros f Hf Hv; reflexivity|]. unfold source_beside. rewrite (mixing_form _ _ _ _ _ _ _ two_columns). unfold dx, dS_v, dS_, jump, dz_of, dot, avg_of. cbn. rewrite !K_near. lra.
Qed.
(** Refuted: "a uniform field stays as it is".  Wind speed 5 m/s in one column and 10 m/s in the next, theta = 300 K in both: the residual of the first is
    about -12000 *)
Theorem mixing_uniform_refuted : source_beside 100 (pair_of 1 1) (flat 1 1) (K_beside (pair_of 5 10)) (flat 1 0) (flat 300 300) < -12000.
Proof. rewrite beside_eq. lra. Qed.
(** Refuted: "the density-weighted total is kept", if the recovered density differs between columns: it is recovered into a space that is discontinuous there *)
Theorem mixing_total_refuted : source_beside 100 (pair_of 1 1) (flat 1 2) (K_beside (pair_of 5 5)) (flat 1 2) (flat 300 310) <> 0.
Proof. rewrite beside_eq. lra. Qed.
(** Refuted: "the variance does not grow", if the wind speed differs between columns: 303 K and 300 K, 5 m/s and 10 m/s, uniform density *)
Theorem mixing_dissipates_refuted : source_beside 100 (pair_of 1 1) (flat 1 1) (K_beside (pair_of 5 10)) (times (flat 1 1) (flat 303 300)) (flat 303 300) < 0.
Proof.
  unfold source_beside. rewrite (mixing_form _ _ _ _ _ _ _ two_columns). unfold dx, dS_v, dS_, jump, dz_of, dot, avg_of. cbn. rewrite !K_near. lra.
Qed.
(** Refuted: "the mixing is vertical".  Fields that do not vary in the vertical are exchanged between columns *)
Theorem mixing_vertical_only_refuted : 0 < source_beside 100 (pair_of 1 1) (flat 1 1) (K_beside (pair_of 5 5)) (flat 1 0) (flat 301 300).
Proof. rewrite beside_eq. lra. Qed.
(** Refuted: "layers with different values are mixed".  One column of two layers, the field constant in each (as the horizontal wind of the lowest order is):
    nothing happens, for any test function, wind, density and values *)
Theorem mixing_layers_refuted : forall mu dz rho K test a b, mixing_source two 2 stacked up (fun f i => - up f i) up up mu dz rho K test (flat a b) = 0.
Proof.
  intros mu dz rho K test a b. rewrite (mixing_form _ _ _ _ _ _ _ two_layers). rewrite dx_0_in, dS_v_0; [ring|intros; discriminate|].
  intros c Hc. replace (dz_of 2 (up c) (at_cell (flat a b) c)) with 0; [ring|]. unfold dz_of, dot. cbn. ring.
Qed.
(** Refuted: "only the horizontal wind is mixed" (l.654-656).  The horizontal wind has the shear 1/s in both columns and does not differ between them; a vertical
    test function on the first column has a negative residual: the vertical wind is accelerated there *)
Definition sheared : placed vpoint :=
  let p := {| v_val := fun i => match i with 0%nat => 5 | _ => 0 end; v_grad := fun i j => match i, j with 0%nat, 1%nat => 1 | _, _ => 0 end |} in
  {| at_cell := fun _ => p; at_plus := fun _ => p; at_minus := fun _ => p |}.
Definition lifting : placed vpoint :=
  let p v := {| v_val := fun i => match i with 1%nat => v | _ => 0 end; v_grad := fun _ _ => 0 |} in
  {| at_cell := fun c => p (match c with 0%nat => 1 | _ => 0 end); at_plus := fun _ => p 1; at_minus := fun _ => p 0 |}.
Theorem mixing_horizontal_only_refuted : horizontal_field two 2 up up sheared /\
  mixing_source_v two 2 side_by_side right left_ up up 100 (pair_of 1 1) (flat 1 1) (K_beside (pair_of 5 5)) lifting sheared < 0.
Proof.
  assert (H : horizontal_field two 2 up up sheared) by (split; intros; [|split]; unfold dot; cbn; ring). split; [exact H|].
  rewrite (mixing_form_u _ _ _ _ _ _ _ two_columns) by exact H. unfold dx, dS_v, dS_, avg_vdz, vjump, vdz_of, dot, avg_of. cbn. rewrite !K_near. lra.
Qed.
