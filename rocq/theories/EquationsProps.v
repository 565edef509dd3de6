(** C90-C94: linear and nonlinear equation sets. *)
From Verif Require Import Base Vec Transport TransportProps CommonForms CommonFormsProps Equations IMEX IMEXProps RK RKProps Theta ThetaSpec ThetaProps.
From Coq Require Import String.
Open Scope R_scope.

(** ** Specification *)
Definition valid_option (opt : string) : Prop :=
  opt = "vector_invariant_form"%string \/ opt = "circulation_form"%string \/ opt = "vector_advection_form"%string.
Definition zero_at (u : vpoint) : Prop := forall i j, v_val u i = 0 /\ v_grad u i j = 0.
Definition at_rest (u : velocity_field) : Prop := forall k, zero_at (u_at u k).
Definition uniform (s : sfield) (c : R) : Prop := forall k i, sv s k = c /\ sg s k i = 0.
(** what is needed of the circulation form, and of perp: its values are orthogonal to their argument *)
Definition circ_vanishes (circ : nat -> (nat -> R) -> vpoint -> vpoint -> R) : Prop :=
  forall k w a b, zero_at a \/ zero_at b -> circ k w a b = 0.
Definition perp_orthogonal (d : nat) (perp : nat -> (nat -> R) -> nat -> R) : Prop :=
  forall k (u : nat -> R) c, vdot d (perp k u) (fun i => c * u i) = 0.
Definition perp_of_rest (perp : nat -> (nat -> R) -> nat -> R) : Prop := forall k u, (forall i, u i = 0) -> forall i, perp k u i = 0.
Definition perp_linear (perp : nat -> (nat -> R) -> nat -> R) : Prop :=
  forall k u v a b i, perp k (fun i => a * u i + b * v i) i = a * perp k u i + b * perp k v i.

Section Sums.
Variable G : geometry.
Lemma dx_ext f g : (forall k, f k = g k) -> dx G f = dx G g.
Proof. intros H. unfold dx. apply rsum_ext. intros. rewrite H. ring. Qed.
Lemma dx_0 f : (forall k, f k = 0) -> dx G f = 0.
Proof. intros H. unfold dx. apply rsum_0. intros. rewrite H. ring. Qed.
Lemma dx_plus f g : dx G (fun k => f k + g k) = dx G f + dx G g.
Proof. unfold dx. rewrite <- rsum_add. apply rsum_ext. intros. ring. Qed.
Lemma dx_scale c f : dx G (fun k => c * f k) = c * dx G f.
Proof. unfold dx. rewrite <- rsum_scal. apply rsum_ext. intros. ring. Qed.
Lemma dS_ext f g : (forall k, f k = g k) -> dS_ G f = dS_ G g.
Proof. intros H. unfold dS_. apply rsum_ext. intros. rewrite H. ring. Qed.
Lemma dS_plus f g : dS_ G (fun k => f k + g k) = dS_ G f + dS_ G g.
Proof. unfold dS_. rewrite <- rsum_add. apply rsum_ext. intros. ring. Qed.
Lemma dS_scale c f : dS_ G (fun k => c * f k) = c * dS_ G f.
Proof. unfold dS_. rewrite <- rsum_scal. apply rsum_ext. intros. ring. Qed.
End Sums.

Lemma perps_are_orthogonal :
  perp_orthogonal 2 (fun _ => perp2) /\ (forall normal, perp_orthogonal 3 (fun k u => cross3 (normal k) u)) /\
  circ_vanishes (fun _ => circulation2) /\ circ_vanishes (fun _ => circulation3).
Proof.
  split; [|split; [|split]].
  - intros k u c. unfold vdot, perp2. cbn. ring.
  - intros n k u c. unfold vdot, cross3. cbn. ring.
  - intros k w a b [H|H]; unfold circulation2, div_perp2, perp2; cbn;
      rewrite ?(proj1 (H 0%nat 0%nat)), ?(proj1 (H 1%nat 0%nat)), ?(proj2 (H 1%nat 0%nat)), ?(proj2 (H 0%nat 1%nat)); ring.
  - intros k w a b [H|H]; unfold circulation3, cross3, curl3; cbn;
      rewrite ?(proj1 (H 0%nat 0%nat)), ?(proj1 (H 1%nat 0%nat)), ?(proj1 (H 2%nat 0%nat)), ?(proj2 (H 1%nat 0%nat)), ?(proj2 (H 0%nat 1%nat)), ?(proj2 (H 2%nat 0%nat)), ?(proj2 (H 0%nat 2%nat)), ?(proj2 (H 1%nat 2%nat)), ?(proj2 (H 2%nat 1%nat)); ring.
Qed.

(** ** Reading residuals *)
Lemma spatial_app r1 r2 X T : spatial (r1 ++ r2)%list X T = spatial r1 X T + spatial r2 X T.
Proof. unfold spatial. induction r1 as [|t r1 IH]; cbn [app fold_right]; [ring|]. rewrite IH. ring. Qed.
Lemma mass_app r1 r2 X T : mass (r1 ++ r2)%list X T = mass r1 X T + mass r2 X T.
Proof. unfold mass. induction r1 as [|t r1 IH]; cbn [app fold_right]; [ring|]. rewrite IH. ring. Qed.
Lemma spatial_cons t r X T : spatial (t :: r) X T = (if has_lab "time_derivative" t then 0 else t_form t X T) + spatial r X T.
Proof. reflexivity. Qed.
Lemma mass_cons t r X T : mass (t :: r) X T = (if has_lab "time_derivative" t then t_form t X T else 0) + mass r X T.
Proof. reflexivity. Qed.
Lemma spatial_nil X T : spatial [] X T = 0.
Proof. reflexivity. Qed.
Lemma mass_nil X T : mass [] X T = 0.
Proof. reflexivity. Qed.
Lemma linearise_app Xr a b : linearise_equation_set Xr (a ++ b)%list = (linearise_equation_set Xr a ++ linearise_equation_set Xr b)%list.
Proof. apply flat_map_app. Qed.
Lemma generate_app l a b : generate_linear_terms l (a ++ b)%list = (generate_linear_terms l a ++ generate_linear_terms l b)%list.
Proof. apply map_app. Qed.

Lemma v_div_zero d u : zero_at u -> v_div d u = 0.
Proof. intros H. unfold v_div. apply rsum_0. intros i _. apply H. Qed.

(** the velocity transport terms vanish when the fluid is at rest, and their linearisations when the reference
    state is *)
Lemma u_transport_at_rest G d circ opt lm r : circ_vanishes circ -> u_transport G d circ opt lm = Ok r ->
  (forall X T, at_rest (f_u X) -> spatial r X T = 0) /\ (forall X T, mass r X T = 0) /\
  (lm = true -> forall X T Xr, at_rest (f_u Xr) -> spatial (linearise_equation_set Xr (generate_linear_terms (fun _ => true) r)) X T = 0 /\
     mass (linearise_equation_set Xr (generate_linear_terms (fun _ => true) r)) X T = 0).
Proof.
  intros C. unfold u_transport.
  assert (Z : forall a b c, zero_at a \/ zero_at b -> vector_advection d c a b = 0).
  { intros a b c H. unfold vector_advection. apply rsum_0. intros j _. rewrite rsum_0; [ring|]. intros i _.
    destruct H as [H|H]; [rewrite (proj2 (H i j))|rewrite (proj1 (H i j))]; ring. }
  assert (K : forall a b c, zero_at a \/ zero_at b -> kinetic_energy d c a b = 0).
  { intros a b c H. unfold kinetic_energy. rewrite (rsum_0 d); [ring|]. intros i _.
    destruct H as [H|H]; rewrite (proj1 (H i 0%nat)); ring. }
  assert (V : forall k a b w, zero_at a \/ zero_at b -> vector_invariant d (circ k) w a b = 0).
  { intros k a b w H. unfold vector_invariant. rewrite C by exact H. rewrite (rsum_0 d); [ring|]. intros i _.
    destruct H as [H|H]; rewrite (proj1 (H i 0%nat)); ring. }
  assert (L : forall k a b w, zero_at b -> linear_vector_invariant d (circ k) w a b = 0).
  { intros k a b w H. unfold linear_vector_invariant, linear_circulation. rewrite !C by auto. rewrite (rsum_0 d); [ring|]. intros i _.
    rewrite (proj1 (H i 0%nat)); ring. }
  destruct (String.eqb opt "vector_invariant_form"); [|destruct (String.eqb opt "circulation_form"); [|destruct (String.eqb opt "vector_advection_form"); [|discriminate]]];
    intros H; injection H as <-; (split; [|split]); [intros X T HX|intros X T|intros -> X T Xr HX; split|intros X T HX|intros X T|intros -> X T Xr HX; split|intros X T HX|intros X T|intros -> X T Xr HX; split];
    cbn; rewrite ?dx_0; try ring; intros k; try specialize (HX k); auto.
  - unfold linear_circulation. rewrite !C by auto. ring.
Qed.

Lemma sw_residual_at_rest G d circ perp opt lm g f topog r X T :
  circ_vanishes circ -> perp_of_rest perp -> sw_setup G d circ perp opt lm g f topog [] = Ok r -> at_rest (f_u X) ->
  spatial r X T = - g * dx G (fun k => v_div d (u_at (f_u T) k) * sv (f_D X) k) + match topog with Some B => - g * dx G (fun k => v_div d (u_at (f_u T) k) * B k) | None => 0 end.
Proof.
  intros C P. unfold sw_setup. destruct (u_transport _ _ _ _ _) as [ru|] eqn:E; [|discriminate]. intros H. injection H as <-. intros HX.
  destruct (u_transport_at_rest _ _ _ _ _ _ C E) as [Hu _].
  repeat first [rewrite spatial_app | rewrite spatial_cons | rewrite spatial_nil]. rewrite Hu by exact HX.
  cbn [has_lab t_labels mass_term_u mass_term_s continuity_term term mem existsb t_form]. cbn [String.eqb Ascii.eqb Bool.eqb orb].
  rewrite (dx_0 G (fun k => continuity _ _ _ _)).
  2:{ intros k. unfold continuity. rewrite (v_div_zero d _ (HX k)). rewrite (rsum_0 d); [ring|]. intros i _. rewrite (proj1 (HX k i 0%nat)). ring. }
  assert (F : spatial (opt_list (fun f0 : nat -> R => coriolis_term G d perp f0 lm) f) X T = 0).
  { destruct f as [f|]; [|reflexivity]. cbn. unfold coriolis_form. rewrite dx_0; [ring|]. intros k. unfold vdot. rewrite rsum_0; [ring|]. intros i _. rewrite P; [ring|]. intros j. apply (HX k j 0%nat). }
  rewrite F. unfold pressure_form. destruct topog as [B|]; cbn; [|ring].
  unfold topography_form. rewrite (dx_ext G (fun k => - g * v_div d (u_at (f_u T) k) * B k) (fun k => - g * (v_div d (u_at (f_u T) k) * B k))) by (intros; ring).
  rewrite dx_scale. ring.
Qed.

(** ** Semi-discrete equations.  [emb x] is the function with coefficients x; [N] gives the coefficients of the
    tendency: <dX/dt, test> + residual(X, test) = 0 for all test functions means dx/dt = - N x. *)
Definition represents {I} (r : list eqterm) (emb : vec I -> fields) (N : vec I -> vec I) : Prop :=
  forall x z, mass r (emb (N x)) (emb z) = spatial r (emb x) (emb z).
(** functions depend linearly on their coefficients *)
Definition linear_eval {I} (emb : vec I -> fields) : Prop :=
  (forall k i, linear_fun (fun x => v_val (u_at (f_u (emb x)) k) i)) /\ (forall k i j, linear_fun (fun x => v_grad (u_at (f_u (emb x)) k) i j)) /\ (forall k, linear_fun (fun x => sv (f_D (emb x)) k)) /\ (forall k, linear_fun (fun x => sv (f_b (emb x)) k)).
(** a mixed space: the components may be scaled one by one *)
Definition scaled (a c e : R) (X Y : fields) : Prop :=
  (forall k i, v_val (u_at (f_u Y) k) i = a * v_val (u_at (f_u X) k) i) /\ (forall k i j, v_grad (u_at (f_u Y) k) i j = a * v_grad (u_at (f_u X) k) i j) /\ (forall k, sv (f_D Y) k = c * sv (f_D X) k) /\ (forall k, sv (f_b Y) k = e * sv (f_b X) k).
Definition mixed_space {I} (emb : vec I -> fields) : Prop := forall a c e x, exists z, scaled a c e (emb x) (emb z).
(** integral of a1 |u|^2 + a2 D^2 + a3 b^2, polarised *)
Definition energy (G : geometry) (d : nat) (a1 a2 a3 : R) (X Y : fields) : R :=
  1/2 * (a1 * mass_u G d X Y + a2 * mass_s G f_D X Y + a3 * mass_s G f_b X Y).

(** the schemes and what they do to the quadratic form B *)
Definition schemes_keep {I} (N : vec I -> vec I) (B : vec I -> vec I -> R) : Prop :=
  forall dt x y,
  (forall st, (cached st = None \/ cached st = Some (tab_ImplicitMidpoint 0%nat 0%nat)) -> irk_increment tab_ImplicitMidpoint 1 dt N st x y -> B y y = B x x) /\ (forall X0, irk_predictor tab_ImplicitMidpoint 1 dt N X0 x y -> B y y = B x x) /\ (forall st, (cached st = None \/ cached st = Some (tab_QinZhang 0%nat 0%nat)) -> irk_increment tab_QinZhang 2 dt N st x y -> B y y = B x x) /\ (forall X0, irk_predictor tab_QinZhang 2 dt N X0 x y -> B y y = B x x) /\ (forall X src src' n, trapezium_apply N (fun _ => vzero) dt X n src x y src' -> B y y = B x x) /\ (forall X src src' n theta, 1/2 <= theta -> theta_apply N (fun _ => vzero) dt X theta n src x y src' -> B y y <= B x x) /\ (forall X src src' n, be_apply N (fun _ => vzero) dt X n src x y src' -> B y y <= B x x).

Lemma theta_energy {I} (N : vec I -> vec I) (B : vec I -> vec I -> R) theta dt n x y :
  bilinear_sym B -> (forall z, 0 <= B z z) ->
  (forall x y, B (theta *v y +v (1 - theta) *v x) (theta *v N y +v (1 - theta) *v N x) = 0) ->
  steps (theta_step theta (neg N) (neg (fun _ => vzero)) dt) n x y ->
  (theta = 1/2 -> B y y = B x x) /\ (1/2 <= theta -> B y y <= B x x).
Proof.
  intros [Hl Hs] Hp H. revert x. induction n as [|n IH]; cbn; intros x Hy.
  { subst y. split; intros; lra. }
  destruct Hy as (z & Hz & Hy). destruct (IH z Hy) as [I1 I2].
  assert (E : B z z - B x x = (1 - 2 * theta) * B (z -v x) (z -v x)).
  { assert (D : z -v x = (- dt) *v (theta *v N z +v (1 - theta) *v N x)).
    { unfold theta_step, neg in Hz. apply functional_extensionality; intros i. apply (f_equal (fun v => v i)) in Hz. vunfold. lra. }
    pose proof (H x z) as Hm.
    assert (La : forall x u v, B x (u +v v) = B x u + B x v) by (intros ? u v; apply (Hl _)).
    assert (Ls : forall x a u, B x (a *v u) = a * B x u) by (intros ? a u; apply (Hl _)).
    assert (M : B (theta *v z +v (1 - theta) *v x) (z -v x) = 0) by (rewrite D, Ls, Hm; ring).
    assert (Lm : forall x u v, B x (u -v v) = B x u - B x v) by (intros a u v; apply (linear_fun_sub (B a)), Hl).
    rewrite Lm, !(Hs (theta *v z +v (1 - theta) *v x)), !La, !Ls in M.
    rewrite Lm, !(Hs (z -v x)), !Lm. rewrite (Hs x z) in *. lra. }
  pose proof (Hp (z -v x)) as P. split; intros Ht.
  - rewrite I1 by exact Ht. subst theta. assert (1 - 2 * (1/2) = 0) as R by lra. rewrite R in E. lra.
  - specialize (I2 Ht). assert ((1 - 2 * theta) * B (z -v x) (z -v x) <= 0). { assert (1 - 2 * theta <= 0) by lra. nra. } lra.
Qed.

Lemma skew_residual_keeps {I} r (emb : vec I -> fields) (N : vec I -> vec I) (B : vec I -> vec I -> R) :
  represents r emb N -> bilinear_sym B -> (forall z, 0 <= B z z) ->
  (forall y, exists z, (forall x, B x y = 1/2 * mass r (emb x) (emb z)) /\ spatial r (emb y) (emb z) = 0) ->
  (forall a b x y z, spatial r (emb (a *v x +v b *v y)) (emb z) = a * spatial r (emb x) (emb z) + b * spatial r (emb y) (emb z)) ->
  (forall x, B x (N x) = 0) /\ schemes_keep N B.
Proof.
  intros HR HB Hp Hz Hl.
  assert (S : forall th x y, B (th *v y +v (1 - th) *v x) (th *v N y +v (1 - th) *v N x) = 0).
  { intros th x y. destruct (Hz (th *v y +v (1 - th) *v x)) as (z & Hz1 & Hz2).
    rewrite (proj1 (proj1 HB _)), !(proj2 (proj1 HB _)), !(proj2 HB (th *v y +v (1 - th) *v x)), !Hz1, !HR.
    rewrite Hl in Hz2. lra. }
  assert (Z : forall x, B x (N x) = 0).
  { intros x. specialize (S 1 x x). replace (1 *v x +v (1 - 1) *v x) with x in S by vring. replace (1 *v N x +v (1 - 1) *v N x) with (N x) in S by vring. exact S. }
  split; [exact Z|]. intros dt x y.
  destruct (implicit_schemes_conserve_quadratic_invariants I dt N B x y HB Z) as (H1 & H2 & H3 & H4).
  split; [exact H1|]. split; [exact H2|]. split; [exact H3|]. split; [exact H4|].
  split; [|split].
  - intros X src src' n H. destruct (theta_schemes_are_textbook I N (fun _ => vzero) dt X src n x y) as (_ & _ & E).
    apply (theta_energy N B (1/2) dt n x y HB Hp (S (1/2))); [|reflexivity]. apply E. eexists; exact H.
  - intros X src src' n th Ht H. destruct (theta_schemes_are_textbook I N (fun _ => vzero) dt X src n x y) as (E & _ & _).
    apply (theta_energy N B th dt n x y HB Hp (S th)); [|exact Ht]. apply E. eexists; exact H.
  - intros X src src' n H. destruct (theta_schemes_are_textbook I N (fun _ => vzero) dt X src n x y) as (_ & E & _).
    apply (theta_energy N B 1 dt n x y HB Hp (S 1)); [|lra]. apply E. eexists; exact H.
Qed.

Lemma linear_sw_residual G d circ perp opt g f topog Xr r : circ_vanishes circ ->
  linear_shallow_water G d circ perp opt g f topog Xr = Ok r -> at_rest (f_u Xr) ->
  forall X T,
  spatial r X T = dx G (fun k => linear_continuity d (sv (f_D T) k) (at_ (f_D X) k) (u_at (f_u X) k) (at_ (f_D Xr) k) (u_at (f_u Xr) k))
                  + pressure_form G d g X T + match f with Some f => coriolis_form G d perp f X T | None => 0 end /\
  mass r X T = mass_u G d X T + mass_s G f_D X T.
Proof.
  intros C. unfold linear_shallow_water, shallow_water, sw_setup. destruct (u_transport _ _ _ _ _) as [ru|] eqn:E; [|discriminate].
  intros H HX X T. apply (f_equal (fun q => match q with Ok a => a | Err _ => [] end)) in H. cbv beta iota in H. subst r. destruct (u_transport_at_rest _ _ _ _ _ _ C E) as (_ & _ & Hu). destruct (Hu eq_refl X T Xr HX) as [Hu1 Hu2].
  rewrite !generate_app, !linearise_app.
  assert (Cf : linearise_equation_set Xr (generate_linear_terms (fun _ => true) (opt_list (fun f0 => coriolis_term G d perp f0 true) f))
             = match f with Some f => [term ["coriolis"%string] "u" (coriolis_form G d perp f) None (Some (fun _ _ tr T => coriolis_form G d perp f tr T))] | None => [] end)
    by (destruct f; reflexivity).
  assert (Tf : linearise_equation_set Xr (generate_linear_terms (fun _ => true) (opt_list (fun B : nat -> R => term [] "u" (topography_form G d g B) None None) topog)) = [])
    by (destruct topog; reflexivity).
  split.
  - rewrite !spatial_app, Hu1, Cf, Tf. destruct f as [f|]; cbn; ring.
  - rewrite !mass_app, Hu2, Cf, Tf. destruct f as [f|]; cbn; ring.
Qed.

(** ** C90.  The linear shallow water equations about a state of rest of uniform depth are the documented ones,
    ... *)
Lemma rest_continuity G d Xr X T H : at_rest (f_u Xr) -> uniform (f_D Xr) H ->
  dx G (fun k => linear_continuity d (sv (f_D T) k) (at_ (f_D X) k) (u_at (f_u X) k) (at_ (f_D Xr) k) (u_at (f_u Xr) k))
  = H * dx G (fun k => sv (f_D T) k * v_div d (u_at (f_u X) k)).
Proof.
  intros HX HD. rewrite <- dx_scale. apply dx_ext. intros k. unfold linear_continuity, continuity, at_. cbn [s_val s_grad].
  rewrite (v_div_zero d _ (HX k)). rewrite (rsum_0 d (fun i => v_val (u_at (f_u Xr) k) i * _)).
  2:{ intros i _. rewrite (proj1 (HX k i 0%nat)). ring. }
  rewrite (rsum_0 d). 2:{ intros i _. rewrite (proj2 (HD k i)). ring. }
  rewrite (proj1 (HD k 0%nat)). ring.
Qed.

Theorem linear_shallow_water_documented :
  forall G d circ perp opt g f topog Xr r H, circ_vanishes circ -> at_rest (f_u Xr) -> uniform (f_D Xr) H ->
  linear_shallow_water G d circ perp opt g f topog Xr = Ok r ->
  forall X T,
  let u := fun k => u_at (f_u X) k in let w := fun k => u_at (f_u T) k in
  (* du/dt + f perp(u) + g grad D = 0,  dD/dt + H div u = 0, in weak form *)
  spatial r X T = dx G (fun k => (match f with Some f => f k | None => 0 end) * vdot d (perp k (v_val (u k))) (v_val (w k)))
                  - g * dx G (fun k => v_div d (w k) * sv (f_D X) k)
                  + H * dx G (fun k => sv (f_D T) k * v_div d (u k)) /\
  mass r X T = dx G (fun k => vdot d (v_val (u k)) (v_val (w k))) + dx G (fun k => sv (f_D X) k * sv (f_D T) k).
Proof.
  intros G d circ perp opt g f topog Xr r H C HX HD Hr X T u w.
  destruct (linear_sw_residual _ _ _ _ _ _ _ _ _ _ C Hr HX X T) as [E M]. split; [|exact M].
  rewrite E, (rest_continuity _ _ _ _ _ H HX HD). unfold pressure_form, coriolis_form. destruct f as [f|].
  - fold u w. ring_simplify. unfold u, w. ring.
  - rewrite (dx_0 G (fun k => 0 * _)) by (intros; ring). unfold u, w. ring.
Qed.
Print Assumptions linear_shallow_water_documented.

Lemma lin2 {I} (l : vec I -> R) a b x y : linear_fun l -> l (a *v x +v b *v y) = a * l x + b * l y.
Proof. intros [H1 H2]. rewrite H1, !H2. reflexivity. Qed.
Lemma vdot_lin d (a b : R) (p q s : nat -> R) : vdot d (fun i => a * p i + b * q i) s = a * vdot d p s + b * vdot d q s.
Proof. unfold vdot. rewrite <- !rsum_scal, <- rsum_add. apply rsum_ext. intros. ring. Qed.
Lemma vdot_ext d p p' q q' : (forall i, p i = p' i) -> (forall i, q i = q' i) -> vdot d p q = vdot d p' q'.
Proof. intros H1 H2. unfold vdot. apply rsum_ext. intros. rewrite H1, H2. reflexivity. Qed.
Lemma v_div_lin {I} d (emb : vec I -> fields) a b x y k : linear_eval emb ->
  v_div d (u_at (f_u (emb (a *v x +v b *v y))) k) = a * v_div d (u_at (f_u (emb x)) k) + b * v_div d (u_at (f_u (emb y)) k).
Proof.
  intros (_ & H & _). unfold v_div. rewrite <- !rsum_scal, <- rsum_add. apply rsum_ext. intros i _. apply (lin2 _ a b x y (H k i i)).
Qed.
Lemma dx_lin G (a b : R) f p q : (forall k, f k = a * p k + b * q k) -> dx G f = a * dx G p + b * dx G q.
Proof. intros H. rewrite (dx_ext G f (fun k => a * p k + b * q k)) by exact H. rewrite dx_plus, !dx_scale. reflexivity. Qed.
Lemma perp_pos G (f : nat -> R) : (forall k, (k < ncp G)%nat -> 0 <= cw G k) -> (forall k, 0 <= f k) -> 0 <= dx G f.
Proof.
  intros Hw Hf. unfold dx. assert (forall n, (n <= ncp G)%nat -> 0 <= rsum n (fun k => cw G k * f k)); [|apply H; lia].
  induction n as [|n IH]; cbn; intros Hn; [lra|]. specialize (IH ltac:(lia)). specialize (Hw n ltac:(lia)). specialize (Hf n). nra.
Qed.
Lemma rsum_pos n f : (forall k, 0 <= f k) -> 0 <= rsum n f.
Proof. intros H. induction n as [|n IH]; cbn; [lra|]. specialize (H n). lra. Qed.

Lemma energy_bilinear {I} G d a1 a2 a3 (emb : vec I -> fields) : linear_eval emb ->
  bilinear_sym (fun x y => energy G d a1 a2 a3 (emb x) (emb y)).
Proof.
  intros (L1 & _ & L2 & L3). split.
  - intros x. assert (Q : forall a b y z, energy G d a1 a2 a3 (emb x) (emb (a *v y +v b *v z)) = a * energy G d a1 a2 a3 (emb x) (emb y) + b * energy G d a1 a2 a3 (emb x) (emb z)).
    { intros a b y z. unfold energy, mass_u, mass_s.
      rewrite (dx_lin G a b _ (fun k => vdot d (v_val (u_at (f_u (emb x)) k)) (v_val (u_at (f_u (emb y)) k))) (fun k => vdot d (v_val (u_at (f_u (emb x)) k)) (v_val (u_at (f_u (emb z)) k)))).
      2:{ intros k. unfold vdot. rewrite <- !rsum_scal, <- rsum_add. apply rsum_ext. intros i _. rewrite (lin2 _ a b y z (L1 k i)). ring. }
      rewrite (dx_lin G a b (fun k => sv (f_D (emb x)) k * sv (f_D (emb (a *v y +v b *v z))) k) (fun k => sv (f_D (emb x)) k * sv (f_D (emb y)) k) (fun k => sv (f_D (emb x)) k * sv (f_D (emb z)) k)) by (intros k; cbv beta; rewrite (lin2 _ a b y z (L2 k)); ring).
      rewrite (dx_lin G a b (fun k => sv (f_b (emb x)) k * sv (f_b (emb (a *v y +v b *v z))) k) (fun k => sv (f_b (emb x)) k * sv (f_b (emb y)) k) (fun k => sv (f_b (emb x)) k * sv (f_b (emb z)) k)) by (intros k; cbv beta; rewrite (lin2 _ a b y z (L3 k)); ring).
      ring. }
    split.
    + intros y z. replace (y +v z) with (1 *v y +v 1 *v z) by vring. rewrite Q. ring.
    + intros a y. replace (a *v y) with (a *v y +v 0 *v y) by vring. rewrite Q. ring.
  - intros x y. unfold energy, mass_u, mass_s.
    rewrite (dx_ext G (fun k => vdot d (v_val (u_at (f_u (emb x)) k)) _) (fun k => vdot d (v_val (u_at (f_u (emb y)) k)) (v_val (u_at (f_u (emb x)) k)))) by (intros k; unfold vdot; apply rsum_ext; intros; ring).
    rewrite (dx_ext G (fun k => sv (f_D (emb x)) k * _) (fun k => sv (f_D (emb y)) k * sv (f_D (emb x)) k)) by (intros; ring).
    rewrite (dx_ext G (fun k => sv (f_b (emb x)) k * _) (fun k => sv (f_b (emb y)) k * sv (f_b (emb x)) k)) by (intros; ring).
    reflexivity.
Qed.
Lemma energy_nonneg G d a1 a2 a3 X : 0 <= a1 -> 0 <= a2 -> 0 <= a3 -> (forall k, (k < ncp G)%nat -> 0 <= cw G k) -> 0 <= energy G d a1 a2 a3 X X.
Proof.
  intros H1 H2 H3 Hw. unfold energy, mass_u, mass_s.
  assert (0 <= dx G (fun k => vdot d (v_val (u_at (f_u X) k)) (v_val (u_at (f_u X) k)))) by (apply perp_pos; [exact Hw|]; intros; unfold vdot; apply rsum_pos; intros; nra).
  assert (0 <= dx G (fun k => sv (f_D X) k * sv (f_D X) k)) by (apply perp_pos; [exact Hw|]; intros; nra).
  assert (0 <= dx G (fun k => sv (f_b X) k * sv (f_b X) k)) by (apply perp_pos; [exact Hw|]; intros; nra).
  nra.
Qed.

(** ... and conserve energy: 1/2 (H |u|^2 + g D^2) is an exact invariant of the semi-discrete equations and of the
    implicit midpoint, Qin-Zhang and trapezium schemes; theta schemes with theta >= 1/2 never increase it. *)
Theorem linear_shallow_water_energy :
  forall (I : Type) G d circ perp opt g f topog Xr r H (emb : vec I -> fields) (N : vec I -> vec I),
  circ_vanishes circ -> perp_orthogonal d perp -> perp_linear perp -> at_rest (f_u Xr) -> uniform (f_D Xr) H ->
  linear_shallow_water G d circ perp opt g f topog Xr = Ok r ->
  linear_eval emb -> mixed_space emb -> represents r emb N ->
  0 <= g -> 0 <= H -> (forall k, (k < ncp G)%nat -> 0 <= cw G k) ->
  let E := fun x y => energy G d H g 0 (emb x) (emb y) in
  (forall x, E x (N x) = 0) /\ schemes_keep N E.
Proof.
  intros I G d circ perp opt g f topog Xr r H emb N C P PL HX HD Hr Hlin Hmix Hrep Hg HH Hw E.
  pose proof (linear_shallow_water_documented _ _ _ _ _ _ _ _ _ _ _ C HX HD Hr) as Doc.
  apply (skew_residual_keeps r emb N E Hrep).
  - apply energy_bilinear. exact Hlin.
  - intros z. apply energy_nonneg; try assumption. lra.
  - intros y. destruct (Hmix H g 0 y) as (z & S1 & S2 & S3 & S4). exists z. split.
    + intros x. rewrite (proj2 (Doc (emb x) (emb z))). unfold E, energy, mass_u, mass_s.
      rewrite (dx_ext G (fun k => vdot d (v_val (u_at (f_u (emb x)) k)) (v_val (u_at (f_u (emb z)) k))) (fun k => H * vdot d (v_val (u_at (f_u (emb x)) k)) (v_val (u_at (f_u (emb y)) k)))).
      2:{ intros k. unfold vdot. rewrite <- rsum_scal. apply rsum_ext. intros i _. rewrite S1. ring. }
      rewrite (dx_ext G (fun k => sv (f_D (emb x)) k * sv (f_D (emb z)) k) (fun k => g * (sv (f_D (emb x)) k * sv (f_D (emb y)) k))) by (intros k; rewrite S3; ring).
      rewrite !dx_scale. ring.
    + rewrite (proj1 (Doc (emb y) (emb z))).
      assert (V : forall k, v_div d (u_at (f_u (emb z)) k) = H * v_div d (u_at (f_u (emb y)) k)).
      { intros k. unfold v_div. rewrite <- rsum_scal. apply rsum_ext. intros. apply S2. }
      rewrite (dx_0 G (fun k => _ * vdot d _ _)).
      2:{ intros k. rewrite (vdot_ext d (perp k (v_val (u_at (f_u (emb y)) k))) (perp k (v_val (u_at (f_u (emb y)) k))) _ (fun i => H * v_val (u_at (f_u (emb y)) k) i)) by (intros; try reflexivity; apply S1).
          rewrite P. ring. }
      rewrite (dx_ext G _ (fun k => H * (v_div d (u_at (f_u (emb y)) k) * sv (f_D (emb y)) k))) by (intros k; rewrite V; ring).
      rewrite (dx_ext G (fun k => sv (f_D (emb z)) k * _) (fun k => g * (v_div d (u_at (f_u (emb y)) k) * sv (f_D (emb y)) k))) by (intros k; rewrite S3; ring).
      rewrite !dx_scale. ring.
  - intros a b x y z. rewrite !(proj1 (Doc _ (emb z))).
    set (F := fun k : nat => match f with Some f => f k | None => 0 end).
    rewrite (dx_lin G a b (fun k => match f with Some f => f k | None => 0 end * vdot d (perp k (v_val (u_at (f_u (emb (a *v x +v b *v y))) k))) (v_val (u_at (f_u (emb z)) k)))
              (fun k => F k * vdot d (perp k (v_val (u_at (f_u (emb x)) k))) (v_val (u_at (f_u (emb z)) k)))
              (fun k => F k * vdot d (perp k (v_val (u_at (f_u (emb y)) k))) (v_val (u_at (f_u (emb z)) k)))).
    2:{ intros k. fold (F k). assert (Q : forall i, perp k (v_val (u_at (f_u (emb (a *v x +v b *v y))) k)) i = a * perp k (v_val (u_at (f_u (emb x)) k)) i + b * perp k (v_val (u_at (f_u (emb y)) k)) i).
        { intros i. rewrite <- PL. f_equal. apply functional_extensionality. intros j. apply (lin2 _ a b x y (proj1 Hlin k j)). }
        rewrite (vdot_ext d _ (fun i => a * perp k (v_val (u_at (f_u (emb x)) k)) i + b * perp k (v_val (u_at (f_u (emb y)) k)) i) (v_val (u_at (f_u (emb z)) k)) (v_val (u_at (f_u (emb z)) k))) by (intros; auto).
        rewrite vdot_lin. ring. }
    rewrite (dx_lin G a b (fun k => v_div d (u_at (f_u (emb z)) k) * sv (f_D (emb (a *v x +v b *v y))) k)
              (fun k => v_div d (u_at (f_u (emb z)) k) * sv (f_D (emb x)) k) (fun k => v_div d (u_at (f_u (emb z)) k) * sv (f_D (emb y)) k))
      by (intros k; cbv beta; rewrite (lin2 _ a b x y (proj1 (proj2 (proj2 Hlin)) k)); ring).
    rewrite (dx_lin G a b (fun k => sv (f_D (emb z)) k * v_div d (u_at (f_u (emb (a *v x +v b *v y))) k))
              (fun k => sv (f_D (emb z)) k * v_div d (u_at (f_u (emb x)) k)) (fun k => sv (f_D (emb z)) k * v_div d (u_at (f_u (emb y)) k)))
      by (intros k; cbv beta; rewrite (v_div_lin d emb a b x y k Hlin); ring).
    unfold F. ring.
Qed.
Print Assumptions linear_shallow_water_energy.

(** ** Total mass.  The divergence theorem for the velocity itself. *)
Definition velocity_divergence_theorem (G : geometry) (d : nat) (u : velocity_field) : Prop :=
  dx G (fun k => v_div d (u_at u k)) = dS_ G (fun f => u_np u f + u_nm u f) + ds_ G (u_nb u).
Definition contained (G : geometry) (u : velocity_field) : Prop :=
  (forall f, (f < nfp G)%nat -> u_nm u f = - u_np u f) /\ (forall b, (b < nbp G)%nat -> u_nb u b = 0).
Lemma contained_divergence G d u : velocity_divergence_theorem G d u -> contained G u -> dx G (fun k => v_div d (u_at u k)) = 0.
Proof.
  intros H [C1 C2]. rewrite H. unfold dS_, ds_. rewrite !rsum_0; [ring| |].
  - intros b Hb. rewrite C2 by exact Hb. ring.
  - intros f Hf. rewrite C1 by exact Hf. ring.
Qed.

Theorem linear_shallow_water_mass :
  forall (I : Type) G d circ perp opt g f topog Xr r H (emb : vec I -> fields) (N : vec I -> vec I) one_,
  circ_vanishes circ -> at_rest (f_u Xr) -> uniform (f_D Xr) H ->
  linear_shallow_water G d circ perp opt g f topog Xr = Ok r ->
  linear_eval emb -> represents r emb N ->
  (* the constant function one is a test function for D *)
  at_rest (f_u (emb one_)) -> uniform (f_D (emb one_)) 1 ->
  (forall x, velocity_divergence_theorem G d (f_u (emb x)) /\ contained G (f_u (emb x))) ->
  let l := fun x => dx G (sv (f_D (emb x))) in
  linear_fun l /\ (forall x, l (N x) = 0) /\
  (* whatever the tableau, no explicit Runge-Kutta step changes it *)
  (forall A s dt n store x, (0 < s)%nat ->
     l (apply_increment A s (fun z => z) dt (neg N) (fun _ => vzero) n store x) = l x /\
     l (apply_predictor A s (fun z => z) dt (neg N) (fun _ => vzero) n store x) = l x).
Proof.
  intros I G d circ perp opt g f topog Xr r H emb N one_ C HX HD Hr Hlin Hrep H1 H2 Hc l.
  assert (L : linear_fun l).
  { destruct Hlin as (_ & _ & L & _). split.
    - intros x y. unfold l. rewrite <- dx_plus. apply dx_ext. intros k. apply (L k).
    - intros a x. unfold l. rewrite <- dx_scale. apply dx_ext. intros k. apply (L k). }
  assert (Z : forall x, l (N x) = 0).
  { intros x. pose proof (Hrep x one_) as E.
    rewrite (proj2 (linear_shallow_water_documented _ _ _ _ _ _ _ _ _ _ _ C HX HD Hr _ _)), (proj1 (linear_shallow_water_documented _ _ _ _ _ _ _ _ _ _ _ C HX HD Hr _ _)) in E.
    rewrite (dx_0 G (fun k => vdot _ _ _)) in E.
    2:{ intros k. unfold vdot. apply rsum_0. intros i _. rewrite (proj1 (H1 k i 0%nat)). ring. }
    rewrite (dx_0 G (fun k => _ * vdot _ _ _)) in E.
    2:{ intros k. unfold vdot. rewrite rsum_0; [ring|]. intros i _. rewrite (proj1 (H1 k i 0%nat)). ring. }
    rewrite (dx_0 G (fun k => v_div d (u_at (f_u (emb one_)) k) * _)) in E.
    2:{ intros k. rewrite (v_div_zero d _ (H1 k)). ring. }
    rewrite (dx_ext G (fun k => sv (f_D (emb one_)) k * v_div d _) (fun k => v_div d (u_at (f_u (emb x)) k))) in E by (intros k; rewrite (proj1 (H2 k 0%nat)); ring).
    destruct (Hc x) as [D1 D2]. rewrite (contained_divergence _ _ _ D1 D2) in E.
    unfold l. rewrite (dx_ext G (sv (f_D (emb (N x)))) (fun k => sv (f_D (emb (N x))) k * sv (f_D (emb one_)) k)) by (intros k; rewrite (proj1 (H2 k 0%nat)); ring).
    rewrite Rplus_0_l in E. rewrite E. ring. }
  split; [exact L|]. split; [exact Z|]. intros A s dt n store x Hs.
  apply (linear_invariants_preserved I A s (neg N) (fun _ => vzero) (fun z => z) dt n store x l Hs L); try reflexivity.
  - intros z. unfold neg. rewrite (proj2 L), Z. ring.
  - intros z. apply linear_fun_zero. exact L.
Qed.
Print Assumptions linear_shallow_water_mass.

(** The documentation of the linear equations has g grad(D + B); topography has no effect on them. *)
Theorem linear_topography_refuted :
  forall G d circ perp opt g f Xr B, linear_shallow_water G d circ perp opt g f (Some B) Xr = linear_shallow_water G d circ perp opt g f None Xr.
Proof.
  intros. unfold linear_shallow_water, shallow_water, sw_setup. destruct (u_transport _ _ _ _ _) as [ru|]; [|reflexivity].
  f_equal. rewrite !generate_app, !linearise_app. reflexivity.
Qed.
Print Assumptions linear_topography_refuted.

(** ** C91: balanced states *)
(** PB is the L2 projection of B to the depth space; the divergence of a velocity is a depth. *)
Definition projection_of (G : geometry) (VD : (nat -> R) -> Prop) (B PB : nat -> R) : Prop :=
  forall phi, VD phi -> dx G (fun k => phi k * PB k) = dx G (fun k => phi k * B k).
Theorem lake_at_rest :
  forall G d circ perp opt (lmap : eqterm -> bool) lm g f B PB c (VU : velocity_field -> Prop) (VD : (nat -> R) -> Prop) r X,
  circ_vanishes circ -> perp_of_rest perp ->
  (forall w, VU w -> VD (fun k => v_div d (u_at w k)) /\ velocity_divergence_theorem G d w /\ contained G w) ->
  projection_of G VD B PB ->
  shallow_water G d circ perp opt lmap lm g f (Some B) = Ok r ->
  (* no flow, and a level surface above the (projected) topography *)
  at_rest (f_u X) -> (forall k, sv (f_D X) k + PB k = c) ->
  forall T, VU (f_u T) -> spatial r X T = 0.
Proof.
  intros G d circ perp opt lmap lm g f B PB c VU VD r X C P HV HP Hr HX HD T HT.
  unfold shallow_water in Hr. destruct (sw_setup _ _ _ _ _ _ _ _ _ _) as [r0|] eqn:E; [|discriminate].
  apply (f_equal (fun q => match q with Ok a => a | Err _ => [] end)) in Hr. cbv beta iota in Hr. subst r.
  assert (S : spatial (generate_linear_terms lmap r0) X T = spatial r0 X T).
  { clear E. induction r0 as [|t r0 IH]; [reflexivity|]. cbn [generate_linear_terms List.map]. rewrite !spatial_cons. f_equal; [|exact IH].
    unfold generate_linear_term. destruct (t_lin t); [reflexivity|]. destruct (lmap t); [|reflexivity]. destruct (t_deriv t); reflexivity. }
  rewrite S, (sw_residual_at_rest _ _ _ _ _ _ _ _ _ _ _ _ C P E HX).
  destruct (HV _ HT) as (V1 & V2 & V3). rewrite <- (HP _ V1).
  rewrite (dx_ext G (fun k => _ * PB k) (fun k => c * v_div d (u_at (f_u T) k) + (-1) * (v_div d (u_at (f_u T) k) * sv (f_D X) k))).
  2:{ intros k. rewrite <- (HD k). ring. }
  rewrite dx_plus, !dx_scale, (contained_divergence _ _ _ V2 V3). ring.
Qed.
Print Assumptions lake_at_rest.

(** Geostrophic states on the f-plane: u = perp(grad psi) and g D = f psi (projected) are steady for the linear
    equations.  The complex: perp(grad psi) is a velocity, without divergence. *)
Theorem geostrophic_balance_is_steady :
  forall G circ opt g f0 topog Xr r H (VU : velocity_field -> Prop) (VD : (nat -> R) -> Prop) (psi : sfield) (Ppsi : nat -> R) X,
  circ_vanishes circ -> at_rest (f_u Xr) -> uniform (f_D Xr) H -> g <> 0 ->
  linear_shallow_water G 2 circ (fun _ => perp2) opt g (Some (fun _ => f0)) topog Xr = Ok r ->
  (forall w, VU w -> VD (fun k => v_div 2 (u_at w k)) /\
     (* psi is continuous and w.n vanishes on the boundary *)
     dx G (fun k => vdot 2 (v_val (u_at w k)) (sg psi k)) = - dx G (fun k => v_div 2 (u_at w k) * sv psi k)) ->
  projection_of G VD (sv psi) Ppsi ->
  (forall k i, (i < 2)%nat -> v_val (u_at (f_u X) k) i = perp2 (sg psi k) i) -> (forall k, v_div 2 (u_at (f_u X) k) = 0) ->
  (forall k, sv (f_D X) k = f0 / g * Ppsi k) ->
  forall T, VU (f_u T) -> spatial r X T = 0.
Proof.
  intros G circ opt g f0 topog Xr r H VU VD psi Ppsi X C HX HD Hg Hr HV HP Hu Hd HDX T HT.
  rewrite (proj1 (linear_shallow_water_documented _ _ _ _ _ _ _ _ _ _ _ C HX HD Hr X T)).
  destruct (HV _ HT) as [V1 V2].
  rewrite (dx_ext G (fun k => f0 * vdot 2 _ _) (fun k => (- f0) * vdot 2 (v_val (u_at (f_u T) k)) (sg psi k))).
  2:{ intros k. unfold vdot, perp2. cbn. rewrite !Hu by lia. unfold perp2. ring. }
  rewrite dx_scale, V2.
  rewrite (dx_ext G (fun k => v_div 2 (u_at (f_u T) k) * sv (f_D X) k) (fun k => f0 / g * (v_div 2 (u_at (f_u T) k) * Ppsi k))) by (intros k; rewrite HDX; ring).
  rewrite dx_scale, (HP _ V1).
  rewrite (dx_0 G (fun k => sv (f_D T) k * _)) by (intros k; rewrite Hd; ring). field. exact Hg.
Qed.
Print Assumptions geostrophic_balance_is_steady.

(** ** Concrete case: three cells of a periodic channel, uniform in y.  Velocities are given by their normal
    components a_i at the facets (cell i lies between facets i and i+1) and along-channel components v_i in
    the cells; one midpoint per cell. *)
Definition channel : geometry := {| ncp := 3; cw := fun _ => 1; nfp := 3; fw := fun _ => 1; nbp := 0; bw := fun _ => 0 |}.
Definition nxt (i : nat) : nat := match i with 0%nat => 1%nat | 1%nat => 2%nat | _ => 0%nat end.
Definition channel_velocity (a v : nat -> R) : velocity_field :=
  {| u_at := fun k => {| v_val := fun i => match i with 0%nat => (a k + a (nxt k)) / 2 | 1%nat => v k | _ => 0 end;
                         v_grad := fun i j => match i, j with 0%nat, 0%nat => a (nxt k) - a k | _, _ => 0 end |};
     u_np := fun f => a f; u_nm := fun f => - a f; u_nb := fun _ => 0 |}.
Definition cell_field (D : nat -> R) : sfield := {| sv := D; sg := fun _ _ => 0; sp := fun f => D (match f with 0%nat => 2%nat | S i => i end); sm := D; sb := fun _ => 0 |}.
(** coefficients: normal components, along-channel components, depths, buoyancies *)
Inductive block := Ba | Bv | BD | Bb.
Definition channel_emb (x : vec (block * nat)) : fields :=
  {| f_u := channel_velocity (fun i => x (Ba, i)) (fun i => x (Bv, i)); f_D := cell_field (fun i => x (BD, i)); f_b := cell_field (fun i => x (Bb, i)); f_q := cell_field (fun _ => 0) |}.
Lemma channel_is_a_space : linear_eval channel_emb /\ mixed_space channel_emb /\
  (forall x, velocity_divergence_theorem channel 2 (f_u (channel_emb x)) /\ contained channel (f_u (channel_emb x))).
Proof.
  split; [|split].
  - split; [|split; [|split]].
    + intros k [|[|i]]; split; intros; cbn; vunfold; lra.
    + intros k [|i] [|j]; split; intros; cbn; vunfold; try lra.
    + intros k; split; intros; cbn; vunfold; lra.
    + intros k; split; intros; cbn; vunfold; lra.
  - intros a c e x. exists (fun bi => (match fst bi with Ba | Bv => a | BD => c | Bb => e end) * x bi). split; [|split; [|split]].
    + intros k [|[|i]]; cbn; lra.
    + intros k [|i] [|j]; cbn; lra.
    + intros k; cbn; lra.
    + intros k; cbn; lra.
  - intros x. split; [|split].
    + unfold velocity_divergence_theorem, dx, dS_, ds_, v_div. cbn. lra.
    + intros f _. reflexivity.
    + intros b H. cbn in H. lia.
Qed.
Definition rest_fields (H N2 : R) : fields :=
  {| f_u := channel_velocity (fun _ => 0) (fun _ => 0); f_D := cell_field (fun _ => H);
     f_b := {| sv := fun _ => 0; sg := fun _ i => match i with 1%nat => N2 | _ => 0 end; sp := fun _ => 0; sm := fun _ => 0; sb := fun _ => 0 |}; f_q := cell_field (fun _ => 0) |}.
(** the tendency: q_k is the value of -f v - g dD/dx in cell k *)
Definition channel_N (g f H : R) (x : vec (block * nat)) : vec (block * nat) :=
  let D := fun i => x (BD, i) in
  let q := fun k => - f * x (Bv, k) - g * (match k with 0%nat => 2 * D 2%nat - 2 * D 1%nat | 1%nat => 2 * D 0%nat - 2 * D 2%nat | _ => 2 * D 1%nat - 2 * D 0%nat end) in
  fun bi => match fst bi with
  | Ba => match snd bi with 0%nat => q 0%nat + q 2%nat - q 1%nat | 1%nat => q 0%nat + q 1%nat - q 2%nat | 2%nat => q 1%nat + q 2%nat - q 0%nat | _ => 0 end
  | Bv => f * (x (Ba, snd bi) + x (Ba, nxt (snd bi))) / 2
  | BD => H * (x (Ba, nxt (snd bi)) - x (Ba, snd bi))
  | Bb => 0
  end.
Lemma rest_fields_rest H N2 : at_rest (f_u (rest_fields H N2)) /\ uniform (f_D (rest_fields H N2)) H.
Proof. split; [intros k [|[|i]] [|j]; cbn; split; lra|intros k i; cbn; split; lra]. Qed.
Example linear_shallow_water_example :
  forall g f H, exists r,
  linear_shallow_water channel 2 (fun _ => circulation2) (fun _ => perp2) "vector_invariant_form" g (Some (fun _ => f)) None (rest_fields H 0) = Ok r /\
  represents r channel_emb (channel_N g f H) /\
  (g = 1 -> channel_N g f H (fun bi => match bi with (BD, 0%nat) => 1 | _ => 0 end) (Ba, 0%nat) <> 0).
Proof.
  intros g f H. eexists. split; [reflexivity|]. split.
  - intros x z. destruct (rest_fields_rest H 0) as [R1 R2].
    pose proof (linear_shallow_water_documented channel 2 (fun _ => circulation2) (fun _ => perp2) "vector_invariant_form" g (Some (fun _ => f)) None (rest_fields H 0) _ H (proj1 (proj2 (proj2 perps_are_orthogonal))) R1 R2 eq_refl) as Doc.
    rewrite (proj1 (Doc _ _)), (proj2 (Doc _ _)). unfold dx, vdot, v_div, perp2, channel_N. cbn. field.
  - intros ->. unfold channel_N. cbn. lra.
Qed.
(** a lake over a bump, and a geostrophic jet *)
Definition channel_space (w : velocity_field) : Prop := exists a v, w = channel_velocity a v.
Lemma channel_space_ok w : channel_space w -> velocity_divergence_theorem channel 2 w /\ contained channel w.
Proof.
  intros (a & v & ->). split; [|split].
  - unfold velocity_divergence_theorem, dx, dS_, ds_, v_div. cbn. lra.
  - intros; reflexivity.
  - intros b H; cbn in H; lia.
Qed.
Definition with_uD (u : velocity_field) (D : nat -> R) : fields := {| f_u := u; f_D := cell_field D; f_b := cell_field (fun _ => 0); f_q := cell_field (fun _ => 0) |}.
Definition bump (k : nat) : R := match k with 1%nat => 3 | _ => 0 end.
(* psi = 0, 1, 2 at the facets *)
Definition channel_psi : sfield :=
  {| sv := fun k => match k with 0%nat => 1/2 | 1%nat => 3/2 | _ => 1 end; sg := fun k i => match i, k with 0%nat, 2%nat => -2 | 0%nat, _ => 1 | _, _ => 0 end;
     sp := fun _ => 0; sm := fun _ => 0; sb := fun _ => 0 |}.
Example balance_examples :
  (exists r, shallow_water channel 2 (fun _ => circulation2) (fun _ => perp2) "vector_advection_form" (fun _ => true) true 10 (Some (fun _ => 1)) (Some bump) = Ok r /\
     forall T, channel_space (f_u T) -> spatial r (with_uD (channel_velocity (fun _ => 0) (fun _ => 0)) (fun k => 5 - bump k)) T = 0) /\
  (exists r, linear_shallow_water channel 2 (fun _ => circulation2) (fun _ => perp2) "circulation_form" 10 (Some (fun _ => 3)) None (rest_fields 7 0) = Ok r /\
     forall T, channel_space (f_u T) -> spatial r (with_uD (channel_velocity (fun _ => 0) (fun k => sg channel_psi k 0%nat)) (fun k => 3 / 10 * sv channel_psi k)) T = 0).
Proof.
  destruct perps_are_orthogonal as (_ & _ & C & _). split; eexists; (split; [reflexivity|]).
  - refine (lake_at_rest channel 2 _ _ "vector_advection_form" (fun _ => true) true 10 (Some (fun _ => 1)) bump bump 5 channel_space (fun _ => True) _ _ C _ _ _ eq_refl _ _).
    + intros k u H i. unfold perp2. destruct i; rewrite H; ring.
    + intros w Hw. split; [exact Logic.I|]. apply channel_space_ok. exact Hw.
    + intros phi _. reflexivity.
    + intros k [|[|i]] [|j]; cbn; split; lra.
    + intros k. cbn. ring.
  - destruct (rest_fields_rest 7 0) as [R1 R2].
    refine (geostrophic_balance_is_steady channel _ "circulation_form" 10 3 None (rest_fields 7 0) _ 7 channel_space (fun _ => True) channel_psi (sv channel_psi) _ C R1 R2 _ eq_refl _ _ _ _ _); [lra| | | | |].
    + intros w (a & v & ->). split; [exact Logic.I|]. unfold dx, vdot, v_div. cbn. field.
    + intros phi _. reflexivity.
    + intros k [|[|i]] Hi; cbn; [lra|destruct k as [|[|[|k]]]; lra|lia].
    + intros k. unfold v_div. cbn. lra.
    + intros k. reflexivity.
Qed.

(** ** Thermal shallow water (C91, C92) *)
(** the same value everywhere, also on facets *)
Definition constant_field (s : sfield) (c : R) : Prop := uniform s c /\ (forall f, sp s f = c /\ sm s f = c /\ sb s f = c).
(** the divergence theorem for s w *)
Definition product_divergence_theorem (G : geometry) (d : nat) (s : sfield) (w : velocity_field) : Prop :=
  dx G (fun k => sv s k * v_div d (u_at w k) + vdot d (v_val (u_at w k)) (sg s k))
  = dS_ G (jump_ s w) + ds_ G (fun b => sb s b * u_nb w b).
Lemma weak_grad_constant G d w s b0 b : contained G w -> constant_field b b0 ->
  weak_grad G d b s w = - b0 * dx G (fun k => v_div d (u_at w k) * sv s k) /\
  (product_divergence_theorem G d s w -> weak_grad G d s b w = 0).
Proof.
  intros [C1 C2] [U1 U2]. split; unfold weak_grad.
  - rewrite (dx_ext G _ (fun k => b0 * (v_div d (u_at w k) * sv s k))).
    2:{ intros k. rewrite (proj1 (U1 k 0%nat)). unfold vdot. rewrite rsum_0; [ring|]. intros i _. rewrite (proj2 (U1 k i)). ring. }
    rewrite dx_scale. unfold dS_. rewrite rsum_0; [ring|]. intros f Hf. unfold jump_. rewrite (C1 f Hf), (proj1 (U2 f)), (proj1 (proj2 (U2 f))). ring.
  - intros P. rewrite (dx_ext G _ (fun k => b0 * (sv s k * v_div d (u_at w k) + vdot d (v_val (u_at w k)) (sg s k)))) by (intros k; rewrite (proj1 (U1 k 0%nat)); ring).
    rewrite dx_scale, P. rewrite (dS_ext G (fun f => jump_ s w f * avg_ b f) (fun f => b0 * jump_ s w f)).
    2:{ intros f. unfold avg_. rewrite (proj1 (U2 f)), (proj1 (proj2 (U2 f))). field. }
    rewrite dS_scale. unfold ds_. rewrite (rsum_0 (nbp G)); [ring|]. intros k Hk. rewrite (C2 k Hk). ring.
Qed.
(** with uniform buoyancy the pressure gradient is that of the shallow water equations with g = b *)
Theorem thermal_source_uniform_buoyancy :
  forall G d w D b b0, contained G w -> constant_field b b0 -> product_divergence_theorem G d D w ->
  thermal_source G d D b w = - b0 * dx G (fun k => v_div d (u_at w k) * sv D k).
Proof.
  intros G d w D b b0 C B P. destruct (weak_grad_constant G d w D b0 b C B) as [E1 E2]. unfold thermal_source. rewrite E1, E2 by exact P. ring.
Qed.
Print Assumptions thermal_source_uniform_buoyancy.

Lemma generate_keeps lmap r X T : spatial (generate_linear_terms lmap r) X T = spatial r X T.
Proof.
  induction r as [|t r IH]; [reflexivity|]. cbn [generate_linear_terms List.map]. rewrite !spatial_cons. f_equal; [|exact IH].
  unfold generate_linear_term. destruct (t_lin t); [reflexivity|]. destruct (lmap t); [|reflexivity]. destruct (t_deriv t); reflexivity.
Qed.
Lemma spatial_filter l r X T : spatial (List.filter (fun t => negb (has_lab l t)) r) X T
  = spatial r X T - fold_right (fun t acc => (if has_lab "time_derivative" t then 0 else if has_lab l t then t_form t X T else 0) + acc) 0 r.
Proof.
  induction r as [|t r IH]; [cbn; ring|]. cbn [List.filter fold_right]. rewrite spatial_cons.
  destruct (has_lab l t); cbn [negb]; rewrite ?spatial_cons, IH; destruct (has_lab "time_derivative" t); ring.
Qed.

(** what a thermal fluid at rest with uniform buoyancy feels.  The term of the plain shallow water equations for
    the topography (with g) is still there, next to the thermal one (with b). *)
Lemma thermal_at_rest G d circ perp opt lmap lm g f topog topogD r X T b0 :
  circ_vanishes circ -> perp_of_rest perp -> thermal_shallow_water G d circ perp None opt lmap lm g f topog topogD = Ok r ->
  at_rest (f_u X) -> constant_field (f_b X) b0 -> contained G (f_u T) -> product_divergence_theorem G d (f_D X) (f_u T) ->
  spatial r X T = - b0 * dx G (fun k => v_div d (u_at (f_u T) k) * sv (f_D X) k)
    + match topog with Some B => - b0 * dx G (fun k => v_div d (u_at (f_u T) k) * sv topogD k) - g * dx G (fun k => v_div d (u_at (f_u T) k) * B k) | None => 0 end.
Proof.
  intros C P Hr HX HB HT HD. unfold thermal_shallow_water, thermal_setup in Hr. destruct (sw_setup _ _ _ _ _ _ _ _ _ _) as [r0|] eqn:E; [|discriminate].
  apply (f_equal (fun q => match q with Ok a => a | Err _ => [] end)) in Hr. cbv beta iota in Hr. subst r.
  rewrite generate_keeps, !spatial_app, spatial_filter, (sw_residual_at_rest _ _ _ _ _ _ _ _ _ _ _ _ C P E HX).
  assert (Q : fold_right (fun t acc => (if has_lab "time_derivative" t then 0 else if has_lab "pressure_gradient" t then t_form t X T else 0) + acc) 0 r0
            = - g * dx G (fun k => v_div d (u_at (f_u T) k) * sv (f_D X) k)).
  { unfold sw_setup in E. destruct (u_transport _ _ _ _ _) as [ru|] eqn:Eu; [|discriminate].
    apply (f_equal (fun q => match q with Ok a => a | Err _ => [] end)) in E. cbv beta iota in E. subst r0. rewrite !fold_right_app.
    assert (Z : forall a, fold_right (fun t acc => (if has_lab "time_derivative" t then 0 else if has_lab "pressure_gradient" t then t_form t X T else 0) + acc) a ru = a).
    { intros a. unfold u_transport in Eu. destruct (String.eqb opt "vector_invariant_form"); [|destruct (String.eqb opt "circulation_form"); [|destruct (String.eqb opt "vector_advection_form"); [|discriminate]]];
        injection Eu as <-; cbn; ring. }
    destruct f as [f|], topog as [B|]; cbn -[fold_right]; rewrite ?Z; cbn; rewrite ?Z; unfold pressure_form; ring. }
  rewrite Q.
  assert (A : dx G (fun k => advection d (sv (f_b T) k) (at_ (f_b X) k) (u_at (f_u X) k)) = 0).
  { apply dx_0. intros k. unfold advection. rewrite rsum_0; [ring|]. intros i _. rewrite (proj1 (HX k i 0%nat)). ring. }
  pose proof (thermal_source_uniform_buoyancy G d (f_u T) (f_D X) (f_b X) b0 HT HB HD) as TS.
  destruct (weak_grad_constant G d (f_u T) topogD b0 (f_b X) HT HB) as [W _].
  destruct topog as [B|]; cbn; rewrite A, TS, ?W; ring.
Qed.
(** C91 for the thermal equations: a level, uniform fluid is steady when there is no topography; ... *)
Theorem thermal_lake_at_rest_partial :
  forall G d circ perp opt lmap lm g f topogD r X T b0 D0,
  circ_vanishes circ -> perp_of_rest perp -> thermal_shallow_water G d circ perp None opt lmap lm g f None topogD = Ok r ->
  at_rest (f_u X) -> constant_field (f_b X) b0 -> (forall k, sv (f_D X) k = D0) ->
  velocity_divergence_theorem G d (f_u T) -> contained G (f_u T) -> product_divergence_theorem G d (f_D X) (f_u T) ->
  spatial r X T = 0.
Proof.
  intros G d circ perp opt lmap lm g f topogD r X T b0 D0 C P Hr HX HB HD V HT PD.
  rewrite (thermal_at_rest _ _ _ _ _ _ _ _ _ _ _ _ _ _ _ C P Hr HX HB HT PD).
  rewrite (dx_ext G _ (fun k => D0 * v_div d (u_at (f_u T) k))) by (intros k; rewrite HD; ring). rewrite dx_scale, (contained_divergence _ _ _ V HT). ring.
Qed.
Print Assumptions thermal_lake_at_rest_partial.
(** ... with topography a lake at rest (level surface, buoyancy equal to g everywhere) starts to move. *)
Theorem thermal_lake_at_rest_refuted :
  exists r T, thermal_shallow_water channel 2 (fun _ => circulation2) (fun _ => perp2) None "vector_invariant_form" (fun _ => true) true 10 None (Some bump) (cell_field bump) = Ok r /\
  let X := {| f_u := channel_velocity (fun _ => 0) (fun _ => 0); f_D := cell_field (fun k => 5 - bump k); f_b := constant 10; f_q := cell_field (fun _ => 0) |} in
  channel_space (f_u T) /\ spatial r X T <> 0 /\
  (* the plain shallow water equations keep the same lake at rest *)
  (forall r', shallow_water channel 2 (fun _ => circulation2) (fun _ => perp2) "vector_invariant_form" (fun _ => true) true 10 None (Some bump) = Ok r' -> spatial r' X T = 0).
Proof.
  eexists. exists (with_uD (channel_velocity (fun i => match i with 1%nat => 1 | _ => 0 end) (fun _ => 0)) (fun _ => 0)).
  split; [reflexivity|]. cbv zeta. destruct perps_are_orthogonal as (_ & _ & C & _).
  assert (P : perp_of_rest (fun _ => perp2)) by (intros k u H i; unfold perp2; destruct i; rewrite H; ring).
  assert (S : channel_space (channel_velocity (fun i => match i with 1%nat => 1 | _ => 0 end) (fun _ => 0))) by (do 2 eexists; reflexivity).
  split; [exact S|]. split.
  - erewrite (thermal_at_rest channel 2 (fun _ => circulation2) (fun _ => perp2) "vector_invariant_form" (fun _ => true) true 10 None (Some bump) (cell_field bump) _ _ _ 10 C P eq_refl).
    + unfold dx, v_div. cbn. lra.
    + intros k [|[|i]] [|j]; cbn; split; lra.
    + split; [intros k i|intros f]; cbn; repeat split; reflexivity.
    + apply channel_space_ok. exact S.
    + unfold product_divergence_theorem, dx, dS_, ds_, vdot, v_div, jump_. cbn. lra.
  - intros r' Hr'. refine (lake_at_rest channel 2 _ _ "vector_invariant_form" (fun _ => true) true 10 None bump bump 5 channel_space (fun _ => True) _ _ C P _ _ Hr' _ _ _ _); [| | | |exact S].
    + intros w Hw. split; [exact Logic.I|]. apply channel_space_ok. exact Hw.
    + intros phi _. reflexivity.
    + intros k [|[|i]] [|j]; cbn; split; lra.
    + intros k. cbn. ring.
Qed.
Print Assumptions thermal_lake_at_rest_refuted.

(** ** C92: linear equation sets *)
(** which terms survive: those with a linearisation, in order, with their labels; nothing else *)
Theorem linearised_terms :
  forall Xr lmap r,
  let r' := linearise_equation_set Xr (generate_linear_terms lmap r) in
  (* the terms kept *)
  List.map (fun t => (t_labels t, t_field t)) r'
  = List.map (fun t => (t_labels t, t_field t)) (List.filter (fun t => match t_lin t, t_deriv t with Some _, _ => true | None, Some _ => lmap t | None, None => false end) r) /\
  (* their forms: the given linearisation, else the derivative at the reference state, of the prognostic variables *)
  (forall X T, List.map (fun t => t_form t X T) r'
   = flat_map (fun t => match t_lin t with Some l => [l X Xr X T] | None => match t_deriv t with Some dv => if lmap t then [dv Xr X T] else [] | None => [] end end) r).
Proof.
  intros Xr lmap r. cbv zeta. split; [|intros X T]; (induction r as [|t r IH]; [reflexivity|]);
    unfold linearise_equation_set, generate_linear_terms in *; cbn [List.map flat_map List.filter];
    unfold generate_linear_term at 1, linearise_term at 1.
  - destruct (t_lin t) eqn:El; [rewrite El; cbn [app List.map]; f_equal; exact IH|]. destruct (lmap t) eqn:Em; destruct (t_deriv t) eqn:Ed; cbn [t_lin]; rewrite ?El; cbn [app List.map]; try exact IH. f_equal. exact IH.
  - destruct (t_lin t) eqn:El; [rewrite El; cbn [app List.map t_form]; f_equal; exact IH|]. destruct (lmap t) eqn:Em; destruct (t_deriv t) eqn:Ed; cbn [t_lin]; rewrite ?El; cbn [app List.map t_form]; try exact IH. f_equal. exact IH.
Qed.
Print Assumptions linearised_terms.

(** A field plus a perturbation *)
Definition sfplus (a b : sfield) : sfield :=
  {| sv := fun k => sv a k + sv b k; sg := fun k i => sg a k i + sg b k i; sp := fun f => sp a f + sp b f; sm := fun f => sm a f + sm b f; sb := fun f => sb a f + sb b f |}.
Lemma weak_grad_bilinear G d a b c e w : weak_grad G d (sfplus a b) (sfplus c e) w
  = weak_grad G d a c w + weak_grad G d a e w + weak_grad G d b c w + weak_grad G d b e w.
Proof.
  unfold weak_grad.
  rewrite (dx_ext G (fun k => sv (sfplus c e) k * _)
     (fun k => sv c k * (sv a k * v_div d (u_at w k) + vdot d (v_val (u_at w k)) (sg a k)) + (sv e k * (sv a k * v_div d (u_at w k) + vdot d (v_val (u_at w k)) (sg a k))
        + (sv c k * (sv b k * v_div d (u_at w k) + vdot d (v_val (u_at w k)) (sg b k)) + sv e k * (sv b k * v_div d (u_at w k) + vdot d (v_val (u_at w k)) (sg b k)))))).
  2:{ intros k. cbn [sfplus sv sg]. assert (Q : vdot d (v_val (u_at w k)) (fun i => sg a k i + sg b k i) = vdot d (v_val (u_at w k)) (sg a k) + vdot d (v_val (u_at w k)) (sg b k)).
      { unfold vdot. rewrite <- rsum_add. apply rsum_ext. intros. ring. } cbn. rewrite Q. ring. }
  rewrite (dS_ext G (fun f => jump_ (sfplus a b) w f * _) (fun f => jump_ a w f * avg_ c f + (jump_ a w f * avg_ e f + (jump_ b w f * avg_ c f + jump_ b w f * avg_ e f)))).
  2:{ intros f. unfold jump_, avg_. cbn. field. }
  rewrite !dx_plus, !dS_plus. ring.
Qed.
(** The hand-written linearisation of the thermal pressure gradient lacks b' grad Dbar ... *)
Theorem thermal_linearisation :
  forall G d D' b' Dbar bbar w,
  thermal_source G d (sfplus Dbar D') (sfplus bbar b') w
  = thermal_source G d Dbar bbar w + (thermal_linear_source G d D' b' Dbar bbar w + weak_grad G d b' Dbar w) + thermal_source G d D' b' w /\
  (* ... which vanishes when the mean depth is uniform *)
  (forall H, contained G w -> constant_field Dbar H -> product_divergence_theorem G d b' w -> weak_grad G d b' Dbar w = 0) /\
  (* and then, with uniform mean buoyancy, the linear form is the documented one, bbar grad D + H/2 grad b *)
  (forall H B, contained G w -> constant_field Dbar H -> constant_field bbar B -> product_divergence_theorem G d D' w ->
     thermal_linear_source G d D' b' Dbar bbar w = - B * dx G (fun k => v_div d (u_at w k) * sv D' k) - 1/2 * H * dx G (fun k => v_div d (u_at w k) * sv b' k)).
Proof.
  intros G d D' b' Dbar bbar w. split; [|split].
  - unfold thermal_source, thermal_linear_source. rewrite !weak_grad_bilinear. field.
  - intros H C K P. apply (weak_grad_constant G d w b' H Dbar C K). exact P.
  - intros H B C K1 K2 P. unfold thermal_linear_source. destruct (weak_grad_constant G d w D' B bbar C K2) as [E1 E2]. destruct (weak_grad_constant G d w b' H Dbar C K1) as [E3 _].
    rewrite E1, E2, E3 by exact P. field.
Qed.
Print Assumptions thermal_linearisation.
(** with a non-uniform mean depth the linear form is not the derivative *)
Theorem thermal_linearisation_refuted :
  exists G w D' b' Dbar bbar, contained G w /\ product_divergence_theorem G 2 b' w /\ product_divergence_theorem G 2 Dbar w /\
  thermal_source G 2 (sfplus Dbar D') (sfplus bbar b') w - thermal_source G 2 Dbar bbar w - thermal_source G 2 D' b' w <> thermal_linear_source G 2 D' b' Dbar bbar w.
Proof.
  exists channel, (channel_velocity (fun i => match i with 1%nat => 1 | _ => 0 end) (fun _ => 0)), (constant 0), (cell_field (fun k => match k with 1%nat => 1 | _ => 0 end)), (cell_field (fun k => match k with 1%nat => 2 | _ => 1 end)), (constant 0).
  split; [split; [reflexivity|intros b H; cbn in H; lia]|].
  split; [unfold product_divergence_theorem, dx, dS_, ds_, vdot, v_div, jump_; cbn; lra|].
  split; [unfold product_divergence_theorem, dx, dS_, ds_, vdot, v_div, jump_; cbn; lra|].
  rewrite (proj1 (thermal_linearisation channel 2 (constant 0) (cell_field (fun k => match k with 1%nat => 1 | _ => 0 end)) (cell_field (fun k => match k with 1%nat => 2 | _ => 1 end)) (constant 0) _)).
  assert (weak_grad channel 2 (cell_field (fun k => match k with 1%nat => 1 | _ => 0 end)) (cell_field (fun k => match k with 1%nat => 2 | _ => 1 end)) (channel_velocity (fun i => match i with 1%nat => 1 | _ => 0 end) (fun _ => 0)) <> 0); [|lra].
  unfold weak_grad, dx, dS_, vdot, v_div, jump_, avg_. cbn. lra.
Qed.
Print Assumptions thermal_linearisation_refuted.

(** The moist (equivalent buoyancy) version of the linear equations is not linear: its coefficients contain the saturation
    value of the current state. *)
Lemma weak_grad_ext G d a a' b b' w :
  (forall k, sv a k = sv a' k) -> (forall k i, sg a k i = sg a' k i) -> (forall f, sp a f = sp a' f) -> (forall f, sm a f = sm a' f) ->
  (forall k, sv b k = sv b' k) -> (forall f, sp b f = sp b' f) -> (forall f, sm b f = sm b' f) ->
  weak_grad G d a b w = weak_grad G d a' b' w.
Proof.
  intros H1 H2 H3 H4 H5 H6 H7. unfold weak_grad. f_equal.
  - f_equal. apply dx_ext. intros k. rewrite H1, H5. do 2 f_equal. apply vdot_ext; auto.
  - apply dS_ext. intros f. unfold jump_, avg_. rewrite H3, H4, H6, H7. reflexivity.
Qed.
Definition scaled_all (a : R) (X : fields) : fields :=
  {| f_u := {| u_at := fun k => {| v_val := fun i => a * v_val (u_at (f_u X) k) i; v_grad := fun i j => a * v_grad (u_at (f_u X) k) i j |};
               u_np := fun f => a * u_np (f_u X) f; u_nm := fun f => a * u_nm (f_u X) f; u_nb := fun f => a * u_nb (f_u X) f |};
     f_D := {| sv := fun k => a * sv (f_D X) k; sg := fun k i => a * sg (f_D X) k i; sp := fun f => a * sp (f_D X) f; sm := fun f => a * sm (f_D X) f; sb := fun f => a * sb (f_D X) f |};
     f_b := {| sv := fun k => a * sv (f_b X) k; sg := fun k i => a * sg (f_b X) k i; sp := fun f => a * sp (f_b X) f; sm := fun f => a * sm (f_b X) f; sb := fun f => a * sb (f_b X) f |};
     f_q := {| sv := fun k => a * sv (f_q X) k; sg := fun k i => a * sg (f_q X) k i; sp := fun f => a * sp (f_q X) f; sm := fun f => a * sm (f_q X) f; sb := fun f => a * sb (f_q X) f |} |}.
Definition step_depth (k : nat) : R := match k with 1%nat => 2 | _ => 1 end.
Theorem linear_moist_thermal_refuted :
  exists r X T,
  linear_thermal_shallow_water channel 2 (fun _ => circulation2) (fun _ => perp2) (Some {| beta2 := 1; qsat := saturation 1 1 0 1 (constant 0) |})
    "vector_invariant_form" 10 None None (constant 0)
    {| f_u := channel_velocity (fun _ => 0) (fun _ => 0); f_D := constant 1; f_b := constant 0; f_q := constant 100 |} = Ok r /\
  spatial r (scaled_all 2 X) T <> 2 * spatial r X T.
Proof.
  set (w := channel_velocity (fun i => match i with 1%nat => 1 | _ => 0 end) (fun _ => 0)).
  set (X := {| f_u := channel_velocity (fun _ => 0) (fun _ => 0); f_D := cell_field step_depth; f_b := constant 0; f_q := constant 0 |}).
  set (T := {| f_u := w; f_D := constant 0; f_b := constant 0; f_q := constant 0 |}).
  eexists. exists X, T. split; [reflexivity|].
  match goal with |- spatial ?r _ _ <> _ => set (R := r) end.
  assert (V : forall a Y, a = 1 \/ a = 2 -> at_rest (f_u Y) -> (forall k, sv (f_D Y) k = a * step_depth k) -> (forall k i, sg (f_D Y) k i = 0) ->
    (forall f, sp (f_D Y) f = a * step_depth (pred f)) -> (forall f, sm (f_D Y) f = a * step_depth f) -> 
    (forall k i, sv (f_b Y) k = 0 /\ sg (f_b Y) k i = 0 /\ sp (f_b Y) k = 0 /\ sm (f_b Y) k = 0) -> (forall k i, sv (f_q Y) k = 0 /\ sg (f_q Y) k i = 0 /\ sp (f_q Y) k = 0 /\ sm (f_q Y) k = 0) ->
    spatial R Y T = 3/8).
  { intros a Y Ha Hu D1 D2 D3 D4 HB HQ.
    assert (E : spatial R Y T = moist_linear_source channel 2 1 (f_D Y) (f_b Y) (f_q Y) (constant 1) (constant 0) (min_field (constant 100) (saturation 1 1 0 1 (constant 0) Y)) w).
    { unfold R. cbn -[moist_linear_source]. unfold linear_advection, advection, linear_continuity, continuity, linear_vector_invariant, linear_circulation, circulation2, div_perp2, perp2, v_div.
      cbn -[moist_linear_source]. field. }
    assert (Q : forall D b, D = a \/ D = 2 * a -> (if Rlt_dec 100 (1 * 1 / (D + 0) * exp (0 * (1 - b / 1))) then 100 else 1 * 1 / (D + 0) * exp (0 * (1 - b / 1))) = / D).
    { intros D b HD. replace (0 * (1 - b / 1)) with 0 by ring. rewrite exp_0. replace (1 * 1 / (D + 0) * 1) with (/ D) by (field; lra).
      destruct (Rlt_dec 100 (/ D)) as [L|L]; [exfalso|reflexivity].
      assert (D * / D = 1) by (apply Rinv_r; lra). nra. }
    assert (SD : forall k, a * step_depth k = a \/ a * step_depth k = 2 * a) by (intros [|[|k]]; cbn; lra).
    set (P := {| sv := fun k => / (a * step_depth k); sg := fun _ _ => 0; sp := fun f => / (a * step_depth (pred f)); sm := fun f => / (a * step_depth f); sb := fun _ => 0 |}).
    set (DD := {| sv := fun k => a * step_depth k; sg := fun _ _ => 0; sp := fun f => a * step_depth (pred f); sm := fun f => a * step_depth f; sb := fun _ => 0 |}).
    set (MF := min_field (constant 100) (saturation 1 1 0 1 (constant 0) Y)) in *.
    assert (M1 : forall k, sv MF k = sv P k) by (intros k; cbn; rewrite D1; apply Q, SD).
    assert (M2 : forall k, sp MF k = sp P k) by (intros k; cbn; rewrite D3; apply Q, SD).
    assert (M3 : forall k, sm MF k = sm P k) by (intros k; cbn; rewrite D4; apply Q, SD).
    assert (M4 : forall k i, sg MF k i = sg P k i).
    { intros k i. cbn. rewrite D2, (proj1 (proj2 (HB k i))). destruct (Rlt_dec _ _); [reflexivity|]. unfold Rdiv. ring. }
    rewrite E. unfold moist_linear_source, thermal_linear_source.
    rewrite (weak_grad_ext channel 2 (constant 0) (constant 0) (f_D Y) DD w), (weak_grad_ext channel 2 (constant 1) (constant 1) (f_b Y) (constant 0) w), (weak_grad_ext channel 2 (f_D Y) DD (constant 0) (constant 0) w),
      (weak_grad_ext channel 2 MF P (f_D Y) DD w), (weak_grad_ext channel 2 (constant 1) (constant 1) (f_q Y) (constant 0) w), (weak_grad_ext channel 2 (f_D Y) DD MF P w);
      try assumption; try reflexivity; try (intros k; apply (HB k 0%nat)); try (intros k; apply (HQ k 0%nat)).
    unfold weak_grad, dx, dS_, vdot, v_div, jump_, avg_. cbn. unfold step_depth. destruct Ha as [-> | ->]; field. }
  rewrite (V 2 (scaled_all 2 X)), (V 1 X); try (cbn; intros; lra); try lra; try reflexivity.
  - intros k [|[|i]] [|j]; cbn; split; lra.
  - intros [|f]; cbn; lra.
  - intros k [|[|i]] [|j]; cbn; split; lra.
  - intros [|f]; cbn; lra.
Qed.
Print Assumptions linear_moist_thermal_refuted.

(** ** C93: Coriolis terms *)
(** the parameter f of every option; on a sphere of the given radius it is 2 Omega sin(latitude) *)
Theorem coriolis_options :
  forall p xyz radius,
  coriolis_f Nonrotating false p xyz radius = Ok None /\
  coriolis_f Fplane false p xyz radius = Ok (Some (fun _ => Equations.f0 p)) /\
  (exists f, coriolis_f Betaplane false p xyz radius = Ok (Some f) /\ forall k, f k = Equations.f0 p + Equations.beta p * xyz k 1%nat) /\
  (forall lat lon, 0 < radius ->
     (forall k, xyz k 0%nat = radius * (cos (lat k) * cos (lon k)) /\ xyz k 1%nat = radius * (cos (lat k) * sin (lon k)) /\ xyz k 2%nat = radius * sin (lat k)) ->
     exists f, coriolis_f Sphere true p xyz radius = Ok (Some f) /\ (forall k, f k = 2 * Equations.Omega p * sin (lat k)) /\ (0 <= Equations.Omega p -> forall k, Rabs (f k) <= 2 * Equations.Omega p)) /\
  coriolis_f Sphere false p xyz radius = Err AssertionError.
Proof.
  intros p xyz radius. split; [reflexivity|]. split; [reflexivity|]. split; [eexists; split; [reflexivity|]; reflexivity|]. split; [|reflexivity].
  intros lat lon Hr Hx. eexists. split; [reflexivity|].
  assert (E : forall k, 2 * Equations.Omega p * xyz k 2%nat / radius = 2 * Equations.Omega p * sin (lat k)).
  { intros k. destruct (Hx k) as (_ & _ & ->). field. lra. }
  split; [exact E|]. intros HO k. cbv beta. rewrite E, Rabs_mult, (Rabs_right (2 * Equations.Omega p)) by lra.
  assert (Rabs (sin (lat k)) <= 1) by (apply Rabs_le; apply SIN_bound). nra.
Qed.
Print Assumptions coriolis_options.
(** it does no work, and applying perp twice turns a (tangential) velocity round *)
Theorem coriolis_does_no_work :
  forall G f X T,
  (forall k i, v_val (u_at (f_u T) k) i = v_val (u_at (f_u X) k) i) ->
  coriolis_form G 2 (fun _ => perp2) f X T = 0 /\
  (forall normal, coriolis_form G 3 (fun k => cross3 (normal k)) f X T = 0) /\
  (forall u i, (i < 2)%nat -> perp2 (perp2 u) i = - u i) /\
  (forall n u i, vdot 3 n n = 1 -> vdot 3 n u = 0 -> (i < 3)%nat -> cross3 n (cross3 n u) i = - u i).
Proof.
  intros G f X T H. destruct perps_are_orthogonal as (P2 & P3 & _).
  assert (Q : forall d perp, perp_orthogonal d perp -> coriolis_form G d perp f X T = 0).
  { intros d perp P. unfold coriolis_form. apply dx_0. intros k.
    rewrite (vdot_ext d (perp k (v_val (u_at (f_u X) k))) (perp k (v_val (u_at (f_u X) k))) _ (fun i => 1 * v_val (u_at (f_u X) k) i)).
    - rewrite P. ring.
    - reflexivity.
    - intros i. rewrite H. ring. }
  split; [apply Q, P2|]. split; [intros n; apply Q, (P3 n)|]. split.
  - intros u [|[|i]] Hi; cbn; [ring|ring|lia].
  - intros n u i H1 H2 Hi. transitivity (n i * vdot 3 n u - u i * vdot 3 n n); [|rewrite H1, H2; ring].
    unfold vdot. destruct i as [|[|[|i]]]; [| | |lia]; unfold cross3; cbn; ring.
Qed.
Print Assumptions coriolis_does_no_work.
(** a misspelt option for the velocity transport: the exception is not the documented ValueError *)
Theorem transport_option_check :
  forall G d circ perp opt lmap lm g f topog,
  (valid_option opt <-> exists r, shallow_water G d circ perp opt lmap lm g f topog = Ok r) /\
  (~ valid_option opt -> shallow_water G d circ perp opt lmap lm g f topog <> Err ValueError /\ shallow_water G d circ perp opt lmap lm g f topog = Err AttributeError).
Proof.
  intros G d circ perp opt lmap lm g f topog.
  assert (K : (valid_option opt /\ exists r, shallow_water G d circ perp opt lmap lm g f topog = Ok r) \/ (~ valid_option opt /\ shallow_water G d circ perp opt lmap lm g f topog = Err AttributeError)).
  { unfold shallow_water, sw_setup, u_transport, valid_option.
    destruct (String.eqb_spec opt "vector_invariant_form"); [left; split; [tauto|eexists; reflexivity]|].
    destruct (String.eqb_spec opt "circulation_form"); [left; split; [tauto|eexists; reflexivity]|].
    destruct (String.eqb_spec opt "vector_advection_form"); [left; split; [tauto|eexists; reflexivity]|].
    right. split; [tauto|reflexivity]. }
  destruct K as [[K1 K2]|[K1 K2]].
  - split; [tauto|contradiction].
  - split; [|intros _; rewrite K2; split; [discriminate|reflexivity]]. split; [contradiction|]. intros [r Hr]. rewrite K2 in Hr. discriminate.
Qed.
Print Assumptions transport_option_check.

(** ** C94: Boussinesq equations, linearised about a stratified state of rest *)
Definition stratified (d : nat) (kvec : nat -> nat -> R) (b : sfield) (N2 : R) : Prop := forall k i, sg b k i = N2 * kvec k i.
Theorem linear_boussinesq_documented :
  forall G d circ kvec opt cs Om Xr r p0 N2, circ_vanishes circ -> at_rest (f_u Xr) -> uniform (f_D Xr) p0 -> stratified d kvec (f_b Xr) N2 ->
  linear_boussinesq G d circ kvec true opt cs Om Xr = Ok r ->
  forall X T,
  let u := fun k => u_at (f_u X) k in let w := fun k => u_at (f_u T) k in
  (* du/dt + 2 Omega x u + grad p - b k = 0, dp/dt + cs^2 div u = 0, db/dt + N^2 u.k = 0 *)
  spatial r X T = dx G (fun k => match Om with Some om => vdot d (v_val (w k)) (cross_omega om (v_val (u k))) | None => 0 end)
                  - dx G (fun k => v_div d (w k) * sv (f_D X) k) - dx G (fun k => sv (f_b X) k * vdot d (v_val (w k)) (kvec k))
                  + cs ^ 2 * dx G (fun k => sv (f_D T) k * v_div d (u k))
                  + N2 * dx G (fun k => sv (f_b T) k * vdot d (v_val (u k)) (kvec k)) /\
  mass r X T = mass_u G d X T + mass_s G f_D X T + mass_s G f_b X T.
Proof.
  intros G d circ kvec opt cs Om Xr r p0 N2 C HX HD HB Hr X T u w.
  unfold linear_boussinesq, boussinesq, boussinesq_setup in Hr. destruct (u_transport _ _ _ _ _) as [ru|] eqn:E; [|discriminate].
  apply (f_equal (fun q => match q with Ok a => a | Err _ => [] end)) in Hr. cbv beta iota in Hr. subst r.
  destruct (u_transport_at_rest _ _ _ _ _ _ C E) as (_ & _ & Hu). destruct (Hu eq_refl X T Xr HX) as [Hu1 Hu2].
  rewrite !generate_app, !linearise_app.
  split.
  - rewrite !spatial_app, Hu1.
    assert (A1 : dx G (fun k => linear_advection d (sv (f_D T) k) (at_ (f_D X) k) (u_at (f_u X) k) (at_ (f_D Xr) k) (u_at (f_u Xr) k)) = 0).
    { apply dx_0. intros k. unfold linear_advection, advection, at_. cbn [s_grad]. rewrite !rsum_0; [ring| |].
      - intros i _. rewrite (proj2 (HD k i)). ring.
      - intros i _. rewrite (proj1 (HX k i 0%nat)). ring. }
    assert (A2 : dx G (fun k => linear_advection d (sv (f_b T) k) (at_ (f_b X) k) (u_at (f_u X) k) (at_ (f_b Xr) k) (u_at (f_u Xr) k))
               = N2 * dx G (fun k => sv (f_b T) k * vdot d (v_val (u k)) (kvec k))).
    { rewrite <- dx_scale. apply dx_ext. intros k. unfold linear_advection, advection, at_. cbn [s_grad].
      rewrite (rsum_0 d (fun i => v_val (u_at (f_u Xr) k) i * _)).
      2:{ intros i _. rewrite (proj1 (HX k i 0%nat)). ring. }
      unfold vdot. rewrite (rsum_ext d (fun i => v_val (u_at (f_u X) k) i * sg (f_b Xr) k i) (fun i => N2 * (v_val (u k) i * kvec k i))).
      2:{ intros i _. rewrite HB. unfold u. ring. }
      rewrite rsum_scal. ring. }
    assert (A3 : dx G (fun k => - v_div d (u_at (f_u T) k) * sv (f_D X) k) = - dx G (fun k => v_div d (w k) * sv (f_D X) k)).
    { transitivity (-1 * dx G (fun k => v_div d (w k) * sv (f_D X) k)); [|ring]. rewrite <- dx_scale. apply dx_ext. intros k. unfold w. ring. }
    assert (A4 : dx G (fun k => - sv (f_b X) k * vdot d (v_val (u_at (f_u T) k)) (kvec k)) = - dx G (fun k => sv (f_b X) k * vdot d (v_val (w k)) (kvec k))).
    { transitivity (-1 * dx G (fun k => sv (f_b X) k * vdot d (v_val (w k)) (kvec k))); [|ring]. rewrite <- dx_scale. apply dx_ext. intros k. unfold w. ring. }
    destruct Om as [om|]; cbn -[pow]; rewrite A1, A2, A3, A4; fold u w; [unfold u, w; ring|].
    rewrite (dx_0 G (fun _ => 0)) by reflexivity. unfold u, w. ring.
  - rewrite !mass_app, Hu2. destruct Om as [om|]; cbn -[pow]; ring.
Qed.
Print Assumptions linear_boussinesq_documented.

(** 1/2 (|u|^2 + p^2/cs^2 + b^2/N^2) is conserved by the equations and by the schemes of C90 *)
Theorem linear_boussinesq_energy :
  forall (I : Type) G d circ kvec opt cs Om Xr r p0 N2 (emb : vec I -> fields) (N : vec I -> vec I),
  (Om = None \/ d = 3%nat) -> circ_vanishes circ -> at_rest (f_u Xr) -> uniform (f_D Xr) p0 -> stratified d kvec (f_b Xr) N2 ->
  linear_boussinesq G d circ kvec true opt cs Om Xr = Ok r ->
  linear_eval emb -> mixed_space emb -> represents r emb N ->
  cs <> 0 -> 0 < N2 -> (forall k, (k < ncp G)%nat -> 0 <= cw G k) ->
  let E := fun x y => energy G d 1 (1 / cs ^ 2) (1 / N2) (emb x) (emb y) in
  (forall x, E x (N x) = 0) /\ schemes_keep N E.
Proof.
  intros I G d circ kvec opt cs Om Xr r p0 N2 emb N HOm C HX HD HB Hr Hlin Hmix Hrep Hcs HN Hw E.
  pose proof (linear_boussinesq_documented _ _ _ _ _ _ _ _ _ _ _ C HX HD HB Hr) as Doc.
  assert (Hc : 0 < cs ^ 2) by (apply Rsqr_pos_lt in Hcs; unfold Rsqr in Hcs; cbn; lra).
  apply (skew_residual_keeps r emb N E Hrep).
  - apply energy_bilinear. exact Hlin.
  - intros z. apply energy_nonneg; try assumption; [lra| |]; apply Rlt_le, Rdiv_lt_0_compat; lra.
  - intros y. destruct (Hmix 1 (1 / cs ^ 2) (1 / N2) y) as (z & S1 & S2 & S3 & S4). exists z. split.
    + intros x. rewrite (proj2 (Doc (emb x) (emb z))). unfold E, energy, mass_u, mass_s.
      rewrite (dx_ext G (fun k => vdot d (v_val (u_at (f_u (emb x)) k)) (v_val (u_at (f_u (emb z)) k))) (fun k => vdot d (v_val (u_at (f_u (emb x)) k)) (v_val (u_at (f_u (emb y)) k)))).
      2:{ intros k. apply vdot_ext; [reflexivity|]. intros i. rewrite S1. ring. }
      rewrite (dx_ext G (fun k => sv (f_D (emb x)) k * sv (f_D (emb z)) k) (fun k => 1 / cs ^ 2 * (sv (f_D (emb x)) k * sv (f_D (emb y)) k))) by (intros k; rewrite S3; ring).
      rewrite (dx_ext G (fun k => sv (f_b (emb x)) k * sv (f_b (emb z)) k) (fun k => 1 / N2 * (sv (f_b (emb x)) k * sv (f_b (emb y)) k))) by (intros k; rewrite S4; ring).
      rewrite !dx_scale. ring.
    + rewrite (proj1 (Doc (emb y) (emb z))).
      assert (V : forall k, v_div d (u_at (f_u (emb z)) k) = v_div d (u_at (f_u (emb y)) k)).
      { intros k. unfold v_div. apply rsum_ext. intros. rewrite S2. ring. }
      rewrite (dx_0 G (fun k => match Om with Some om => _ | None => 0 end)).
      2:{ intros k. destruct Om as [om|]; [|reflexivity]. destruct HOm as [?| ->]; [discriminate|]. unfold vdot, cross_omega, cross3. cbn. rewrite !S1. ring. }
      rewrite (dx_ext G _ (fun k => v_div d (u_at (f_u (emb y)) k) * sv (f_D (emb y)) k)) by (intros k; rewrite V; ring).
      rewrite (dx_ext G (fun k => sv (f_b (emb y)) k * _) (fun k => sv (f_b (emb y)) k * vdot d (v_val (u_at (f_u (emb y)) k)) (kvec k))).
      2:{ intros k. f_equal. apply vdot_ext; [|reflexivity]. intros i. rewrite S1. ring. }
      rewrite (dx_ext G (fun k => sv (f_D (emb z)) k * _) (fun k => 1 / cs ^ 2 * (v_div d (u_at (f_u (emb y)) k) * sv (f_D (emb y)) k))) by (intros k; rewrite S3; ring).
      rewrite (dx_ext G (fun k => sv (f_b (emb z)) k * _) (fun k => 1 / N2 * (sv (f_b (emb y)) k * vdot d (v_val (u_at (f_u (emb y)) k)) (kvec k)))) by (intros k; rewrite S4; ring).
      rewrite !dx_scale. field. split; [lra|exact Hcs].
  - intros a b x y z. rewrite !(proj1 (Doc _ (emb z))).
    pose proof (proj1 Hlin) as L1. pose proof (proj1 (proj2 (proj2 Hlin))) as L3. pose proof (proj2 (proj2 (proj2 Hlin))) as L4.
    assert (Q1 : dx G (fun k => match Om with Some om => vdot d (v_val (u_at (f_u (emb z)) k)) (cross_omega om (v_val (u_at (f_u (emb (a *v x +v b *v y))) k))) | None => 0 end)
      = a * dx G (fun k => match Om with Some om => vdot d (v_val (u_at (f_u (emb z)) k)) (cross_omega om (v_val (u_at (f_u (emb x)) k))) | None => 0 end)
      + b * dx G (fun k => match Om with Some om => vdot d (v_val (u_at (f_u (emb z)) k)) (cross_omega om (v_val (u_at (f_u (emb y)) k))) | None => 0 end)).
    { apply dx_lin. intros k. destruct Om as [om|]; [|ring]. destruct HOm as [?| ->]; [discriminate|]. unfold vdot, cross_omega, cross3. cbn. rewrite !(lin2 _ a b x y (L1 k _)). ring. }
    rewrite Q1.
    rewrite (dx_lin G a b (fun k => v_div d (u_at (f_u (emb z)) k) * sv (f_D (emb (a *v x +v b *v y))) k)
              (fun k => v_div d (u_at (f_u (emb z)) k) * sv (f_D (emb x)) k) (fun k => v_div d (u_at (f_u (emb z)) k) * sv (f_D (emb y)) k))
      by (intros k; cbv beta; rewrite (lin2 _ a b x y (L3 k)); ring).
    rewrite (dx_lin G a b (fun k => sv (f_b (emb (a *v x +v b *v y))) k * vdot d (v_val (u_at (f_u (emb z)) k)) (kvec k))
              (fun k => sv (f_b (emb x)) k * vdot d (v_val (u_at (f_u (emb z)) k)) (kvec k)) (fun k => sv (f_b (emb y)) k * vdot d (v_val (u_at (f_u (emb z)) k)) (kvec k)))
      by (intros k; cbv beta; rewrite (lin2 _ a b x y (L4 k)); ring).
    rewrite (dx_lin G a b (fun k => sv (f_D (emb z)) k * v_div d (u_at (f_u (emb (a *v x +v b *v y))) k))
              (fun k => sv (f_D (emb z)) k * v_div d (u_at (f_u (emb x)) k)) (fun k => sv (f_D (emb z)) k * v_div d (u_at (f_u (emb y)) k)))
      by (intros k; cbv beta; rewrite (v_div_lin d emb a b x y k Hlin); ring).
    rewrite (dx_lin G a b (fun k => sv (f_b (emb z)) k * vdot d (v_val (u_at (f_u (emb (a *v x +v b *v y))) k)) (kvec k))
              (fun k => sv (f_b (emb z)) k * vdot d (v_val (u_at (f_u (emb x)) k)) (kvec k)) (fun k => sv (f_b (emb z)) k * vdot d (v_val (u_at (f_u (emb y)) k)) (kvec k))).
    2:{ intros k. cbv beta. rewrite (vdot_ext d (v_val (u_at (f_u (emb (a *v x +v b *v y))) k)) (fun i => a * v_val (u_at (f_u (emb x)) k) i + b * v_val (u_at (f_u (emb y)) k) i) (kvec k) (kvec k)).
        - rewrite vdot_lin. ring.
        - intros i. apply (lin2 _ a b x y (L1 k i)).
        - reflexivity. }
    ring.
Qed.
Print Assumptions linear_boussinesq_energy.

(** a column of the channel with the second direction vertical: internal waves *)
Definition up_vec (k i : nat) : R := match i with 1%nat => 1 | _ => 0 end.
Definition slice_N (cs N2 : R) (x : vec (block * nat)) : vec (block * nat) :=
  fun bi => match fst bi with
  | Bv => - x (Bb, snd bi)
  | Bb => N2 * x (Bv, snd bi)
  | BD => cs ^ 2 * (x (Ba, nxt (snd bi)) - x (Ba, snd bi))
  | Ba => channel_N 1 0 0 x bi
  end.
Example linear_boussinesq_example :
  forall cs N2, exists r,
  linear_boussinesq channel 2 (fun _ => circulation2) up_vec true "vector_invariant_form" cs None (rest_fields 0 N2) = Ok r /\
  stratified 2 up_vec (f_b (rest_fields 0 N2)) N2 /\ represents r channel_emb (slice_N cs N2) /\
  slice_N cs N2 (fun bi => match bi with (Bb, 0%nat) => 1 | _ => 0 end) (Bv, 0%nat) <> 0.
Proof.
  intros cs N2. eexists. split; [reflexivity|]. assert (S : stratified 2 up_vec (f_b (rest_fields 0 N2)) N2) by (intros k [|[|i]]; cbn; ring).
  split; [exact S|]. split.
  - intros x z. destruct (rest_fields_rest 0 N2) as [R1 R2].
    pose proof (linear_boussinesq_documented channel 2 (fun _ => circulation2) up_vec "vector_invariant_form" cs None (rest_fields 0 N2) _ 0 N2 (proj1 (proj2 (proj2 perps_are_orthogonal))) R1 R2 S eq_refl) as Doc.
    rewrite (proj1 (Doc _ _)), (proj2 (Doc _ _)). unfold mass_u, mass_s, dx, vdot, v_div, slice_N, channel_N, up_vec. cbn. field.
  - unfold slice_N. cbn. lra.
Qed.
