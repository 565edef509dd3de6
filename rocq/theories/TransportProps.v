(** C81-C85: transport schemes. *)
From Verif Require Import Base Vec RK RKSpec RKProps SspProps Transport.
Open Scope R_scope.

(** ** Specification.  The divergence theorem for s u: what exact quadrature of a polynomial field gives. *)
Definition divergence_theorem (G : geometry) (d : nat) (s : sfield) (u : vfield) : Prop :=
  dx G (div_su d s u) = dS_ G (fun f => sp s f * up u f + sm s f * um u f) + ds_ G (fun b => sb s b * ub u b).
(** a velocity in HDiv: continuous normal component *)
Definition normal_continuous (G : geometry) (u : vfield) : Prop := forall f, (f < nfp G)%nat -> um u f = - up u f.
Definition no_normal_flow (G : geometry) (u : vfield) : Prop := forall b, (b < nbp G)%nat -> ub u b = 0.
Definition total (G : geometry) (q : sfield) : R := dx G (sv q).
Definition one : sfield := constant 1.

(* ---- sums ---- *)
Lemma wsum_ext n (w f g : nat -> R) : (forall k, (k < n)%nat -> f k = g k) -> rsum n (fun k => w k * f k) = rsum n (fun k => w k * g k).
Proof. intros H. apply rsum_ext. intros k Hk. rewrite H by exact Hk. reflexivity. Qed.
Lemma wsum_0 n (w f : nat -> R) : (forall k, (k < n)%nat -> f k = 0) -> rsum n (fun k => w k * f k) = 0.
Proof. intros H. apply rsum_0. intros k Hk. rewrite H by exact Hk. ring. Qed.
Lemma wsum_add n (w f g : nat -> R) : rsum n (fun k => w k * (f k + g k)) = rsum n (fun k => w k * f k) + rsum n (fun k => w k * g k).
Proof. rewrite <- rsum_add. apply rsum_ext. intros. ring. Qed.
Lemma wsum_scal n (w f : nat -> R) a : rsum n (fun k => w k * (a * f k)) = a * rsum n (fun k => w k * f k).
Proof. rewrite <- rsum_scal. apply rsum_ext. intros. ring. Qed.
Lemma wsum_nonneg n (w f : nat -> R) : (forall k, (k < n)%nat -> 0 <= w k /\ 0 <= f k) -> 0 <= rsum n (fun k => w k * f k).
Proof.
  induction n as [|n IH]; intros H; cbn; [lra|]. assert (0 <= rsum n (fun k => w k * f k)) by (apply IH; intros; apply H; lia).
  destruct (H n ltac:(lia)). nra.
Qed.
Lemma dot_0_r d a : dot d a (fun _ => 0) = 0. Proof. unfold dot. apply rsum_0. intros. ring. Qed.
Lemma dot_scal_r d a b c : dot d a (fun i => c * b i) = c * dot d a b.
Proof. unfold dot. rewrite <- rsum_scal. apply rsum_ext. intros. ring. Qed.
Lemma dot_add_r d a b c : dot d a (fun i => b i + c i) = dot d a b + dot d a c.
Proof. unfold dot. rewrite <- rsum_add. apply rsum_ext. intros. ring. Qed.
Lemma un_sub a : un a - un (- a) = a.
Proof. unfold un. rewrite Rabs_Ropp. lra. Qed.
Lemma un_nonneg a : 0 <= un a.
Proof. unfold un. pose proof (Rle_abs (- a)). rewrite Rabs_Ropp in H. lra. Qed.
Lemma un_add a : un a + un (- a) = Rabs a.
Proof. unfold un. rewrite Rabs_Ropp. lra. Qed.
Lemma un_pos a : 0 <= a -> un a = a. Proof. intros H. unfold un. rewrite Rabs_pos_eq by exact H. lra. Qed.

(** ** C81: conservation *)
(** The conservative form tested with the constant one vanishes: nothing but outflow through the
    boundary changes the integral of q (of q*rho for tracers), whatever q and the velocity are.  With
    two integrations by parts this needs the divergence theorem for q u. *)
Theorem continuity_form_conserves :
  forall G d q rho u,
  (forall i, i = Once \/ (i = Twice /\ divergence_theorem G d q u /\ no_normal_flow G u) ->
     upwind_continuity_form G d i false one q u = Ok 0) /\
  (forall i, i = Once \/ (i = Twice /\ divergence_theorem G d (product q rho) u /\ no_normal_flow G u) ->
     upwind_tracer_conservative_form G d i false one q rho u = Ok 0) /\
  upwind_continuity_form_1d G Once false one q u = Ok 0 /\
  upwind_continuity_form G d Once true one q u = Ok (ds_ G (fun b => un (ub u b) * sb q b)).
Proof.
  intros G d q rho u.
  assert (F0 : forall q, upwind_flux G one q u = 0) by (intros; unfold upwind_flux, dS_, one, constant; cbn; apply wsum_0; intros; ring).
  assert (T : forall q, divergence_theorem G d q u -> no_normal_flow G u ->
            dx G (fun k => sv one k * div_su d q u k) + upwind_flux G one q u - interior_flux G one q u = 0).
  { intros p H Hn. rewrite F0. unfold divergence_theorem in H.
    replace (dx G (fun k => sv one k * div_su d p u k)) with (dx G (div_su d p u)) by (unfold dx; apply wsum_ext; intros; cbn; ring).
    rewrite H. unfold interior_flux.
    replace (ds_ G (fun b => sb p b * ub u b)) with 0 by (symmetry; unfold ds_; apply wsum_0; intros b Hb; rewrite Hn by exact Hb; ring).
    assert (E : dS_ G (fun f => sp one f * (up u f * sp p f) + sm one f * (um u f * sm p f)) = dS_ G (fun f => sp p f * up u f + sm p f * um u f))
      by (unfold dS_; apply wsum_ext; intros; cbn; ring).
    rewrite E. ring. }
  assert (C : forall q : nat -> R, - dx G (fun k => q k * dot d (uv u k) (sg one k)) = 0).
  { intros p. unfold dx. rewrite wsum_0; [ring|]. intros k _. cbn. unfold dot. rewrite rsum_0; [ring|intros; ring]. }
  repeat split.
  - intros i [-> | (-> & H & Hn)]; unfold upwind_continuity_form, assemble_form; cbn [is_never andb].
    + rewrite (C (sv q)), F0. f_equal. ring.
    + f_equal. apply T; assumption.
  - intros i [-> | (-> & H & Hn)]; unfold upwind_tracer_conservative_form, assemble_form; cbn [is_never andb].
    + rewrite (C (fun k => sv q k * sv rho k)), F0. f_equal. ring.
    + f_equal. apply T; assumption.
  - unfold upwind_continuity_form_1d. cbn. f_equal. rewrite F0. unfold dx. rewrite wsum_0; [ring|]. intros. cbn. ring.
  - unfold upwind_continuity_form, assemble_form. cbn [is_never andb]. rewrite (C (sv q)), F0. f_equal.
    unfold outflow_flux, ds_. rewrite Rplus_0_l, Ropp_0 || idtac.
    transitivity (rsum (nbp G) (fun k => bw G k * (sb one k * un (ub u k) * sb q k))); [ring|]. apply wsum_ext. intros. cbn. ring.
Qed.
Print Assumptions continuity_form_conserves.

(** Hence no explicit Runge-Kutta step with any limiter that keeps the total changes it: [V] is the space,
    [field] the function with given coefficients, [F] the tendency obtained from the form. *)
Theorem continuity_transport_conserves_total :
  forall (I : Type) (G : geometry) d (u : vfield) (V : sfield -> Prop) (field : vec I -> sfield) (F L : vec I -> vec I) A s dt n store x,
  (0 < s)%nat -> V one -> linear_fun (fun x => total G (field x)) ->
  (forall x test l, V test -> upwind_continuity_form G d Once false test (field x) u = Ok l ->
     dx G (fun k => sv test k * sv (field (F x)) k) = - l) ->
  (forall z, L (L z) = L z) -> (forall z, total G (field (L z)) = total G (field z)) ->
  total G (field (apply_increment A s L dt F (fun _ => vzero) n store x)) = total G (field x) /\
  total G (field (apply_predictor A s L dt F (fun _ => vzero) n store x)) = total G (field x).
Proof.
  intros I G d u V field F L A s dt n store x Hs H1 Hlin HF HL HT.
  apply (linear_invariants_preserved I A s F (fun _ => vzero) L dt n store x (fun x => total G (field x)) Hs Hlin); try assumption.
  - intros z. destruct (continuity_form_conserves G d (field z) (field z) u) as [H _].
    specialize (HF z one 0 H1 (H Once (or_introl eq_refl))). unfold total. rewrite Ropp_0 in HF. rewrite <- HF.
    unfold dx. apply wsum_ext. intros. cbn. ring.
  - intros z. replace vzero with ((0:R) *v z) by vring. rewrite (proj2 Hlin). ring.
Qed.
Print Assumptions continuity_transport_conserves_total.

(** ** A mesh on which the hypotheses hold: an interval of n+1 cells of width h, cellwise linear fields
    (discontinuous), continuous piecewise linear velocity, Simpson's rule *)
Definition interval (n : nat) (h : R) : geometry :=
  {| ncp := 3 * S n; cw := fun k => match Nat.modulo k 3 with 1%nat => 4 * h / 6 | _ => h / 6 end;
     nfp := n; fw := fun _ => 1; nbp := 2; bw := fun _ => 1 |}.
Definition at_point (h : R) (k : nat) : R := INR (Nat.modulo k 3) * h / 2.
(** a_c + b_c x in cell c; facet f lies between cells f ('+') and f+1 ('-'); exterior points: left, right *)
Definition cellwise (n : nat) (h : R) (a b : nat -> R) : sfield :=
  {| sv := fun k => a (Nat.div k 3) + b (Nat.div k 3) * at_point h k; sg := fun k _ => b (Nat.div k 3);
     sp := fun f => a f + b f * h; sm := fun f => a (S f);
     sb := fun e => match e with O => a O | _ => a n + b n * h end |}.
(** nodal values U_0 .. U_{n+1} *)
Definition hat_velocity (n : nat) (h : R) (U : nat -> R) : vfield :=
  {| uv := fun k _ => U (Nat.div k 3) + (U (S (Nat.div k 3)) - U (Nat.div k 3)) / h * at_point h k;
     ud := fun k => (U (S (Nat.div k 3)) - U (Nat.div k 3)) / h;
     up := fun f => U (S f); um := fun f => - U (S f); ub := fun e => match e with O => - U O | _ => U (S n) end |}.

Lemma rsum_blocks m f : rsum (3 * m) f = rsum m (fun c => f (3 * c)%nat + f (3 * c + 1)%nat + f (3 * c + 2)%nat).
Proof.
  induction m as [|m IH]; [reflexivity|]. replace (3 * S m)%nat with (S (S (S (3 * m)))) by lia. cbn [rsum]. rewrite IH.
  replace (3 * m + 1)%nat with (S (3 * m)) by lia. replace (3 * m + 2)%nat with (S (S (3 * m))) by lia. ring.
Qed.
Lemma div3 c j : (j < 3)%nat -> Nat.div (3 * c + j) 3 = c.
Proof. intros H. symmetry. apply (Nat.div_unique _ 3 c j); lia. Qed.
Lemma mod3 c j : (j < 3)%nat -> Nat.modulo (3 * c + j) 3 = j.
Proof. intros H. symmetry. apply (Nat.mod_unique _ 3 c j); lia. Qed.
Lemma div3_0 c : Nat.div (3 * c) 3 = c. Proof. rewrite <- (Nat.add_0_r (3 * c)). apply div3. lia. Qed.
Lemma mod3_0 c : Nat.modulo (3 * c) 3 = 0%nat. Proof. rewrite <- (Nat.add_0_r (3 * c)). apply mod3. lia. Qed.
Lemma rsum_telescope n (Fr Fl : nat -> R) :
  rsum (S n) (fun c => Fr c - Fl c) = rsum n (fun f => Fr f - Fl (S f)) + (- Fl O + Fr n).
Proof.
  induction n as [|n IH]; [cbn; ring|]. change (rsum (S (S n)) (fun c => Fr c - Fl c)) with (rsum (S n) (fun c => Fr c - Fl c) + (Fr (S n) - Fl (S n))).
  rewrite IH. cbn [rsum]. ring.
Qed.
Lemma interval_divergence_theorem n h a b a' b' U : h <> 0 ->
  divergence_theorem (interval n h) 1 (product (cellwise n h a b) (cellwise n h a' b')) (hat_velocity n h U).
Proof.
  intros Hh. unfold divergence_theorem. unfold dx. cbn [ncp interval]. rewrite rsum_blocks.
  set (Fr := fun c => (a c + b c * h) * (a' c + b' c * h) * U (S c)).
  set (Fl := fun c => a c * a' c * U c).
  transitivity (rsum (S n) (fun c => Fr c - Fl c)).
  - apply rsum_ext. intros c _. unfold div_su, dot. cbn [rsum product sv sg cellwise uv ud hat_velocity cw interval]. unfold at_point.
    rewrite !div3, !mod3, !div3_0, !mod3_0 by lia. unfold Fr, Fl. cbn [INR]. field. exact Hh.
  - rewrite rsum_telescope. unfold dS_, ds_. cbn [nfp nbp fw bw interval rsum]. f_equal.
    + apply rsum_ext. intros f _. unfold Fr, Fl. cbn [product sp sm cellwise up um hat_velocity]. ring.
    + unfold Fr, Fl. cbn [product sb cellwise ub hat_velocity]. ring.
Qed.

(** Example: sealed ends, two cells, a discontinuous field and a velocity that moves it. *)
Example interval_example :
  let G := interval 1 1 in let q := cellwise 1 1 (fun c => INR c) (fun _ => 1) in
  let u := hat_velocity 1 1 (fun i => match i with 1%nat => 1 | _ => 0 end) in
  normal_continuous G u /\ no_normal_flow G u /\ divergence_theorem G 1 q u /\
  (exists test, upwind_continuity_form G 1 Once false test q u <> Ok 0).
Proof.
  cbv zeta. split; [|split; [|split]].
  - intros f _. reflexivity.
  - intros [|[|b]] Hb; cbn in *; try lia; lra.
  - pose proof (interval_divergence_theorem 1 1 (fun _ => 1) (fun _ => 0) (fun c => INR c) (fun _ => 1) (fun i => match i with 1%nat => 1 | _ => 0 end) ltac:(lra)) as H.
    unfold divergence_theorem in *.
    revert H. unfold dx, dS_, ds_, div_su, dot. cbn -[Rmult Rplus INR]. lra.
  - exists (cellwise 1 1 (fun c => match c with O => 1 | _ => 0 end) (fun _ => 0)). unfold upwind_continuity_form, assemble_form, dx, upwind_flux, dS_, dot. cbn.
    unfold un. rewrite Rabs_Ropp, Rabs_R1. intros E. injection E. lra.
Qed.

(** Without integration by parts a discontinuous field is not conserved. *)
Theorem never_by_parts_conservation_refuted :
  exists G q u, normal_continuous G u /\ no_normal_flow G u /\ divergence_theorem G 1 q u /\
    upwind_continuity_form G 1 Never false one q u = Ok 1.
Proof.
  exists (interval 1 1), (product (cellwise 1 1 (fun c => match c with O => 1 | _ => 0 end) (fun _ => 0)) (cellwise 1 1 (fun _ => 1) (fun _ => 0))),
    (hat_velocity 1 1 (fun i => match i with 1%nat => 1 | _ => 0 end)).
  split; [|split; [|split]].
  - intros f _. reflexivity.
  - intros [|[|b]] Hb; cbn in *; try lia; lra.
  - apply interval_divergence_theorem. lra.
  - unfold upwind_continuity_form, assemble_form, dx, div_su, dot. cbn. f_equal. lra.
Qed.
Print Assumptions never_by_parts_conservation_refuted.

(** With the outflow option (one integration by parts) the total of a nonnegative field can only decrease.
    With two integrations by parts the boundary flux is counted twice. *)
Theorem outflow_only_removes :
  forall G d q u, (forall b, (b < nbp G)%nat -> 0 <= bw G b /\ 0 <= sb q b) ->
  (exists l, upwind_continuity_form G d Once true one q u = Ok l /\ 0 <= l) /\
  (divergence_theorem G d q u -> (forall b, (b < nbp G)%nat -> 0 <= ub u b) ->
   upwind_continuity_form G d Once true one q u = Ok (ds_ G (fun b => ub u b * sb q b)) /\
   upwind_continuity_form G d Twice true one q u = Ok (2 * ds_ G (fun b => ub u b * sb q b))).
Proof.
  intros G d q u H. destruct (continuity_form_conserves G d q q u) as (_ & _ & _ & H1). split.
  - rewrite H1. eexists. split; [reflexivity|]. unfold ds_. apply wsum_nonneg. intros b Hb. destruct (H b Hb). split; [assumption|].
    pose proof (un_nonneg (ub u b)). nra.
  - intros Hd Hu.
    assert (E : ds_ G (fun b => un (ub u b) * sb q b) = ds_ G (fun b => ub u b * sb q b)).
    { unfold ds_. apply wsum_ext. intros b Hb. rewrite un_pos by (apply Hu; exact Hb). reflexivity. }
    split; [rewrite H1, E; reflexivity|].
    unfold upwind_continuity_form, assemble_form. cbn [is_never andb]. f_equal.
    replace (dx G (fun k => sv one k * div_su d q u k)) with (dx G (div_su d q u)) by (unfold dx; apply wsum_ext; intros; cbn; ring).
    rewrite Hd.
    replace (upwind_flux G one q u) with 0 by (symmetry; unfold upwind_flux, dS_; apply wsum_0; intros; cbn; ring).
    replace (interior_flux G one q u) with (dS_ G (fun f => sp q f * up u f + sm q f * um u f)) by (unfold interior_flux, dS_; apply wsum_ext; intros; cbn; ring).
    replace (outflow_flux G one q u) with (ds_ G (fun b => un (ub u b) * sb q b)) by (unfold outflow_flux, ds_; apply wsum_ext; intros; cbn; ring).
    replace (ds_ G (fun b => sb q b * ub u b)) with (ds_ G (fun b => ub u b * sb q b)) by (unfold ds_; apply wsum_ext; intros; ring).
    rewrite E. ring.
Qed.
Print Assumptions outflow_only_removes.

(** ** C82: constants are kept, and the ways of integrating by parts agree *)
(** The advective form vanishes for a constant field: any integration by parts, any velocity with
    continuous normal component and no flow through the boundary. *)
Theorem advection_keeps_constants :
  forall G d test u a,
  normal_continuous G u -> divergence_theorem G d test u ->
  (no_normal_flow G u -> forall i, upwind_advection_form G d i false test (constant a) u = Ok 0) /\
  (* open boundary, with the outflow option: all flow outwards *)
  ((forall b, (b < nbp G)%nat -> 0 <= ub u b) -> upwind_advection_form G d Once true test (constant a) u = Ok 0).
Proof.
  intros G d test u a Hc Hd.
  assert (F : upwind_flux G test (constant a) u = a * dS_ G (fun f => sp test f * up u f + sm test f * um u f)).
  { unfold upwind_flux, dS_. rewrite <- wsum_scal. apply wsum_ext. intros f Hf. cbn. rewrite (Hc f Hf). rewrite <- (un_sub (up u f)) at 3 4. ring. }
  assert (I : interior_flux G test (constant a) u = a * dS_ G (fun f => sp test f * up u f + sm test f * um u f)).
  { unfold interior_flux, dS_. rewrite <- wsum_scal. apply wsum_ext. intros f Hf. cbn. ring. }
  assert (B : dx G (fun k => sv test k * dot d (uv u k) (sg (constant a) k)) = 0).
  { unfold dx. apply wsum_0. intros k _. cbn. rewrite dot_0_r. ring. }
  assert (O : dx G (fun k => div_su d test u k * sv (constant a) k) = a * dx G (div_su d test u)).
  { unfold dx. rewrite <- wsum_scal. apply wsum_ext. intros. cbn. ring. }
  split.
  - intros Hn i. unfold upwind_advection_form, assemble_form. cbn [andb].
    assert (Z : ds_ G (fun b => sb test b * ub u b) = 0) by (unfold ds_; apply wsum_0; intros b Hb; rewrite (Hn b Hb); ring).
    destruct i; cbn [is_never]; f_equal.
    + exact B.
    + rewrite O, F, Hd, Z. ring.
    + rewrite B, F, I. ring.
  - intros Hu. unfold upwind_advection_form, assemble_form. cbn [is_never andb]. f_equal. rewrite O, F, Hd.
    assert (E : outflow_flux G test (constant a) u = a * ds_ G (fun b => sb test b * ub u b)).
    { unfold outflow_flux, ds_. rewrite <- wsum_scal. apply wsum_ext. intros b Hb. cbn. rewrite un_pos by (apply Hu; exact Hb). ring. }
    rewrite E. ring.
Qed.
Print Assumptions advection_keeps_constants.

(** Hence a Runge-Kutta step does not change a constant field. *)
Lemma steady_step {I} A s (F : vec I -> vec I) dt y y1 : F y = vzero -> erk_step A s F dt y y1 -> y1 = y.
Proof.
  intros H (k & Hk & ->).
  assert (Z : forall i, (i < s)%nat -> k i = vzero).
  { induction i as [i IH] using lt_wf_ind. intros Hi. rewrite (Hk i Hi).
    rewrite vsum_0; [|intros j Hj; rewrite (IH j Hj) by lia; vring]. replace (y +v dt *v vzero) with y by vring. exact H. }
  rewrite vsum_0; [vring|]. intros j Hj. rewrite (Z j Hj). vring.
Qed.
Theorem constant_field_is_kept :
  forall (I : Type) (G : geometry) d (u : vfield) i (V : sfield -> Prop) (field : vec I -> sfield) (F : vec I -> vec I) A s dt n store x a,
  (0 < s)%nat -> normal_continuous G u -> no_normal_flow G u -> (forall test, V test -> divergence_theorem G d test u) ->
  field x = constant a ->
  (* F x is the tendency obtained by solving with the mass matrix *)
  (forall x test l, V test -> upwind_advection_form G d i false test (field x) u = Ok l ->
     dx G (fun k => sv test k * sv (field (F x)) k) = - l) ->
  (forall z, (forall test, V test -> dx G (fun k => sv test k * sv (field z) k) = 0) -> z = vzero) ->
  apply_increment A s no_limiter dt F no_physics n store x = x /\
  apply_predictor A s no_limiter dt F no_physics n store x = x.
Proof.
  intros I G d u i V field F A s dt n store x a Hs Hc Hn HV Hx HF HM.
  assert (Z : RKProps.total F no_physics x = vzero).
  { assert (F x = vzero) as E.
    { apply HM. intros test Ht. rewrite (HF x test 0 Ht); [ring|]. rewrite Hx. apply (proj1 (advection_keeps_constants G d test u a Hc (HV test Ht)) Hn). }
    unfold RKProps.total, no_physics. rewrite E. vring. }
  assert (K : forall m y, erk_steps A s (RKProps.total F no_physics) dt m x y -> y = x).
  { induction m as [|m IH]; intros y; cbn; [auto|]. intros (z & Hz & Hy). rewrite (IH z Hz) in Hy. exact (steady_step A s _ dt x y Z Hy). }
  destruct (subcycled_runge_kutta I A s F no_physics dt n store x Hs). split; eapply K; eassumption.
Qed.
Print Assumptions constant_field_is_kept.

(** Outflow with two integrations by parts destroys a constant even in uniform outward flow. *)
Theorem outflow_twice_keeps_constants_refuted :
  exists G test u, normal_continuous G u /\ divergence_theorem G 1 test u /\ (forall b, (b < nbp G)%nat -> 0 <= ub u b) /\
    upwind_advection_form G 1 Twice true test one u = Ok 1.
Proof.
  exists (interval 0 1), (product (cellwise 0 1 (fun _ => 1) (fun _ => 0)) (cellwise 0 1 (fun _ => 1) (fun _ => 0))),
    (hat_velocity 0 1 (fun i => match i with O => 0 | _ => 1 end)).
  split; [|split; [|split]].
  - intros f Hf. cbn in Hf. lia.
  - apply interval_divergence_theorem. lra.
  - intros [|[|b]] Hb; cbn in *; try lia; lra.
  - unfold upwind_advection_form, assemble_form, dx, upwind_flux, interior_flux, outflow_flux, dS_, ds_, dot. cbn. f_equal.
    rewrite !un_pos by lra. lra.
Qed.
Print Assumptions outflow_twice_keeps_constants_refuted.

(** Integrating by parts once or twice gives the same form; without integration by parts it is the
    same for fields continuous across the facets. *)
Theorem integration_by_parts_equivalent :
  forall G d test q u,
  divergence_theorem G d (product test q) u -> no_normal_flow G u ->
  upwind_advection_form G d Twice false test q u = upwind_advection_form G d Once false test q u /\
  upwind_continuity_form G d Twice false test q u = upwind_continuity_form G d Once false test q u /\
  (normal_continuous G u -> (forall f, (f < nfp G)%nat -> sp q f = sm q f) ->
   upwind_advection_form G d Never false test q u = upwind_advection_form G d Once false test q u /\
   upwind_continuity_form G d Never false test q u = upwind_continuity_form G d Once false test q u).
Proof.
  intros G d test q u Hd Hn.
  assert (Z : ds_ G (fun b => sb (product test q) b * ub u b) = 0) by (unfold ds_; apply wsum_0; intros b Hb; rewrite (Hn b Hb); ring).
  assert (E : interior_flux G test q u = dx G (div_su d (product test q) u)).
  { rewrite Hd, Z, Rplus_0_r. unfold interior_flux, dS_. apply wsum_ext. intros. cbn. ring. }
  assert (D : forall k, dot d (uv u k) (sg (product test q) k) = sv test k * dot d (uv u k) (sg q k) + sv q k * dot d (uv u k) (sg test k)).
  { intros k. cbn. rewrite dot_add_r, !dot_scal_r. reflexivity. }
  assert (A : dx G (fun k => sv test k * dot d (uv u k) (sg q k)) - dx G (div_su d (product test q) u) = - dx G (fun k => div_su d test u k * sv q k)).
  { unfold dx. apply Rplus_eq_reg_r with (rsum (ncp G) (fun k => cw G k * (div_su d test u k * sv q k))).
    transitivity (rsum (ncp G) (fun k => cw G k * (sv test k * dot d (uv u k) (sg q k))) + rsum (ncp G) (fun k => cw G k * (div_su d test u k * sv q k)) - rsum (ncp G) (fun k => cw G k * div_su d (product test q) u k)); [ring|].
    rewrite <- wsum_add. rewrite (wsum_ext _ _ _ (div_su d (product test q) u)); [ring|].
    intros k _. unfold div_su. rewrite D. cbn. ring. }
  assert (C : dx G (fun k => sv test k * div_su d q u k) - dx G (div_su d (product test q) u) = - dx G (fun k => sv q k * dot d (uv u k) (sg test k))).
  { unfold dx. apply Rplus_eq_reg_r with (rsum (ncp G) (fun k => cw G k * (sv q k * dot d (uv u k) (sg test k)))).
    transitivity (rsum (ncp G) (fun k => cw G k * (sv test k * div_su d q u k)) + rsum (ncp G) (fun k => cw G k * (sv q k * dot d (uv u k) (sg test k))) - rsum (ncp G) (fun k => cw G k * div_su d (product test q) u k)); [ring|].
    rewrite <- wsum_add. rewrite (wsum_ext _ _ _ (div_su d (product test q) u)); [ring|].
    intros k _. unfold div_su. rewrite D. cbn. ring. }
  unfold upwind_advection_form, upwind_continuity_form, assemble_form. cbn [is_never andb]. split; [|split; [|intros H H0; split]].
  - f_equal. rewrite E, <- A. ring.
  - f_equal. rewrite E, <- C. ring.
  - f_equal. rewrite <- A, <- E.
    enough (X : upwind_flux G test q u = interior_flux G test q u) by (rewrite X; ring).
    unfold upwind_flux, interior_flux, dS_. apply wsum_ext. intros f Hf. rewrite (H f Hf), (H0 f Hf). rewrite <- (un_sub (up u f)) at 3 4. ring.
  - f_equal. rewrite <- C, <- E.
    enough (X : upwind_flux G test q u = interior_flux G test q u) by (rewrite X; ring).
    unfold upwind_flux, interior_flux, dS_. apply wsum_ext. intros f Hf. rewrite (H f Hf), (H0 f Hf). rewrite <- (un_sub (up u f)) at 3 4. ring.
Qed.
Print Assumptions integration_by_parts_equivalent.

(** ** C83: stability *)
(** Tested with q itself the forms give the rate of change of half the integral of q^2: a dissipation of the
    jumps, and the compression of the flow. *)
Theorem transport_energy :
  forall G d q u, normal_continuous G u -> no_normal_flow G u -> divergence_theorem G d (product q q) u ->
  let jumps := dS_ G (fun f => Rabs (up u f) * (sp q f - sm q f) ^ 2) in
  let compression := dx G (fun k => ud u k * sv q k ^ 2) in
  upwind_advection_form G d Once false q q u = Ok (1/2 * jumps - 1/2 * compression) /\
  upwind_continuity_form G d Once false q q u = Ok (1/2 * jumps + 1/2 * compression) /\
  ((forall f, (f < nfp G)%nat -> 0 <= fw G f) -> 0 <= jumps).
Proof.
  intros G d q u Hc Hn Hd jumps compression.
  assert (Z : ds_ G (fun b => sb (product q q) b * ub u b) = 0) by (unfold ds_; apply wsum_0; intros b Hb; rewrite (Hn b Hb); ring).
  assert (F : upwind_flux G q q u = 1/2 * jumps + 1/2 * dS_ G (fun f => sp (product q q) f * up u f + sm (product q q) f * um u f)).
  { unfold upwind_flux, jumps, dS_. rewrite <- !wsum_scal, <- wsum_add. apply wsum_ext. intros f Hf. cbn. rewrite (Hc f Hf).
    unfold un. rewrite Rabs_Ropp. field. }
  rewrite Z, Rplus_0_r in Hd || (unfold divergence_theorem in Hd; rewrite Z, Rplus_0_r in Hd). rewrite <- Hd in F.
  assert (D : forall k, div_su d (product q q) u k = ud u k * sv q k ^ 2 + 2 * (sv q k * dot d (uv u k) (sg q k))).
  { intros k. unfold div_su. cbn [product sv sg]. rewrite dot_add_r, !dot_scal_r. ring. }
  assert (E : dx G (div_su d (product q q) u) = compression + 2 * dx G (fun k => sv q k * dot d (uv u k) (sg q k))).
  { unfold compression, dx. rewrite <- wsum_scal, <- wsum_add. apply wsum_ext. intros k _. apply D. }
  assert (A : dx G (fun k => div_su d q u k * sv q k) = compression + dx G (fun k => sv q k * dot d (uv u k) (sg q k))).
  { unfold compression, dx. rewrite <- wsum_add. apply wsum_ext. intros k _. unfold div_su. ring. }
  unfold upwind_advection_form, upwind_continuity_form, assemble_form. cbn [is_never andb]. split; [|split].
  - f_equal. rewrite F, A, E. field.
  - f_equal. rewrite F, E. field.
  - intros Hw. unfold jumps, dS_. apply wsum_nonneg. intros f Hf. split; [apply Hw; exact Hf|].
    pose proof (Rabs_pos (up u f)). pose proof (pow2_ge_0 (sp q f - sm q f)). nra.
Qed.
Print Assumptions transport_energy.

(** Example: the hypotheses hold on the interval for every piecewise linear q and velocity vanishing at the ends. *)
Example transport_energy_example : forall n h a b U, h <> 0 -> U O = 0 -> U (S n) = 0 ->
  normal_continuous (interval n h) (hat_velocity n h U) /\ no_normal_flow (interval n h) (hat_velocity n h U) /\
  divergence_theorem (interval n h) 1 (product (cellwise n h a b) (cellwise n h a b)) (hat_velocity n h U).
Proof.
  intros n h a b U Hh H0 H1. split; [|split].
  - intros f _. reflexivity.
  - intros [|[|e]] He; cbn in *; try lia; lra.
  - apply interval_divergence_theorem. exact Hh.
Qed.

(** Cellwise constants.  One forward Euler step of length dt: V_c (y_c - x_c) = - dt L(1_c; x, u). *)
Definition volume (G : geometry) (D : dg0_map) (c : nat) : R := dx G (sv (dg0 D (indicator c))).
(** a mesh of N cells *)
Definition cells (N : nat) (G : geometry) (D : dg0_map) : Prop :=
  (forall f, (f < nfp G)%nat -> 0 <= fw G f /\ (plus_of D f < N)%nat /\ (minus_of D f < N)%nat) /\
  (forall c, (c < N)%nat -> 0 < volume G D c).
Definition euler_step (N : nat) (form : sfield -> sfield -> res R) (G : geometry) (D : dg0_map) (dt : R) (x y : nat -> R) : Prop :=
  forall c, (c < N)%nat -> exists l, form (dg0 D (indicator c)) (dg0 D x) = Ok l /\ volume G D c * (y c - x c) = - dt * l.
(** the rates at which volume flows into and out of cell c *)
Definition inflow (G : geometry) (D : dg0_map) (u : vfield) (c : nat) : R :=
  dS_ G (fun f => indicator c (plus_of D f) * un (um u f) + indicator c (minus_of D f) * un (up u f)).
Definition outflow_rate (G : geometry) (D : dg0_map) (u : vfield) (c : nat) : R :=
  dS_ G (fun f => indicator c (plus_of D f) * un (up u f) + indicator c (minus_of D f) * un (um u f)).

Lemma ind_val c c' (x : nat -> R) : indicator c c' * x c' = indicator c c' * x c.
Proof. unfold indicator. destruct (Nat.eqb_spec c' c); subst; ring. Qed.
Lemma ind_nonneg c c' : 0 <= indicator c c'. Proof. unfold indicator. destruct (Nat.eqb c' c); lra. Qed.
Lemma wsum_le n (w f g : nat -> R) : (forall k, (k < n)%nat -> 0 <= w k /\ f k <= g k) -> rsum n (fun k => w k * f k) <= rsum n (fun k => w k * g k).
Proof.
  induction n as [|n IH]; intros H; cbn; [lra|]. assert (rsum n (fun k => w k * f k) <= rsum n (fun k => w k * g k)) by (apply IH; intros; apply H; lia).
  destruct (H n ltac:(lia)). nra.
Qed.

(** the advective form: only inflow changes the value, towards the neighbours' *)
Lemma dg0_advection_value G D d u c x :
  normal_continuous G u -> no_normal_flow G u -> divergence_theorem G d (dg0 D (indicator c)) u ->
  upwind_advection_form G d Once false (dg0 D (indicator c)) (dg0 D x) u
  = Ok (dS_ G (fun f => indicator c (plus_of D f) * un (um u f) * (x c - x (minus_of D f)) + indicator c (minus_of D f) * un (up u f) * (x c - x (plus_of D f)))).
Proof.
  intros Hc Hn Hd. unfold upwind_advection_form, assemble_form. cbn [is_never andb]. f_equal.
  assert (A : dx G (fun k => div_su d (dg0 D (indicator c)) u k * sv (dg0 D x) k) = x c * dx G (div_su d (dg0 D (indicator c)) u)).
  { unfold dx. rewrite <- wsum_scal. apply wsum_ext. intros k _. unfold div_su. cbn. rewrite dot_0_r.
    transitivity (ud u k * (indicator c (cell_of D k) * x (cell_of D k))); [ring|]. rewrite ind_val. ring. }
  rewrite A, Hd.
  replace (ds_ G (fun b => sb (dg0 D (indicator c)) b * ub u b)) with 0 by (symmetry; unfold ds_; apply wsum_0; intros b Hb; rewrite (Hn b Hb); ring).
  rewrite Rplus_0_r. unfold upwind_flux, dS_. rewrite Ropp_mult_distr_l, <- wsum_scal, <- wsum_add. apply wsum_ext. intros f Hf. cbn. rewrite (Hc f Hf).
  pose proof (ind_val c (plus_of D f) x) as E1. pose proof (ind_val c (minus_of D f) x) as E2.
  replace (up u f) with (un (up u f) - un (- up u f)) at 1 2 by apply un_sub.
  transitivity (un (up u f) * (indicator c (plus_of D f) * x (plus_of D f)) + un (- up u f) * (indicator c (minus_of D f) * x (minus_of D f))
     - indicator c (plus_of D f) * un (- up u f) * x (minus_of D f) - indicator c (minus_of D f) * un (up u f) * x (plus_of D f)
     - x c * (indicator c (plus_of D f) * (un (up u f) - un (- up u f)) - indicator c (minus_of D f) * (un (up u f) - un (- up u f)))); [ring|].
  rewrite E1, E2. ring.
Qed.
(** Maximum principle: no new extrema when no cell is filled more than once in a step. *)
Theorem dg0_advection_max_principle :
  forall N G D d u dt x y lo hi, cells N G D ->
  normal_continuous G u -> no_normal_flow G u -> (forall c, (c < N)%nat -> divergence_theorem G d (dg0 D (indicator c)) u) ->
  0 <= dt -> (forall c, (c < N)%nat -> dt * inflow G D u c <= volume G D c) ->
  euler_step N (fun t q => upwind_advection_form G d Once false t q u) G D dt x y ->
  (forall c, (c < N)%nat -> lo <= x c <= hi) -> forall c, (c < N)%nat -> lo <= y c <= hi.
Proof.
  intros N G D d u dt x y lo hi (Hm & HV) Hc Hn Hd Hdt HCFL HE Hx c HcN.
  destruct (HE c HcN) as (l & Hl & Hy). rewrite (dg0_advection_value G D d u c x Hc Hn (Hd c HcN)) in Hl.
  assert (Hw : forall f, (f < nfp G)%nat -> 0 <= fw G f) by (intros f Hf; apply (Hm f Hf)).
  assert (L : l = dS_ G (fun f => indicator c (plus_of D f) * un (um u f) * (x c - x (minus_of D f)) + indicator c (minus_of D f) * un (up u f) * (x c - x (plus_of D f)))) by congruence.
  clear Hl. specialize (HV c HcN). specialize (HCFL c HcN).
  assert (B : forall z, (forall c', (c' < N)%nat -> x c' <= z) -> inflow G D u c * (x c - z) <= l).
  { intros z Hz. rewrite L. unfold inflow, dS_. rewrite (Rmult_comm (rsum _ _)), <- wsum_scal. apply wsum_le. intros f Hf. split; [apply Hw; exact Hf|].
    destruct (Hm f Hf) as (_ & Hp & Hmi). pose proof (Hz (minus_of D f) Hmi). pose proof (Hz (plus_of D f) Hp).
    pose proof (Rmult_le_pos _ _ (ind_nonneg c (plus_of D f)) (un_nonneg (um u f))). pose proof (Rmult_le_pos _ _ (ind_nonneg c (minus_of D f)) (un_nonneg (up u f))). nra. }
  assert (B' : forall z, (forall c', (c' < N)%nat -> z <= x c') -> l <= inflow G D u c * (x c - z)).
  { intros z Hz. rewrite L. unfold inflow, dS_. rewrite (Rmult_comm (rsum _ _)), <- wsum_scal. apply wsum_le. intros f Hf. split; [apply Hw; exact Hf|].
    destruct (Hm f Hf) as (_ & Hp & Hmi). pose proof (Hz (minus_of D f) Hmi). pose proof (Hz (plus_of D f) Hp).
    pose proof (Rmult_le_pos _ _ (ind_nonneg c (plus_of D f)) (un_nonneg (um u f))). pose proof (Rmult_le_pos _ _ (ind_nonneg c (minus_of D f)) (un_nonneg (up u f))). nra. }
  specialize (B hi (fun c' H => proj2 (Hx c' H))). specialize (B' lo (fun c' H => proj1 (Hx c' H))). destruct (Hx c HcN) as [H1 H2].
  assert (HI : 0 <= inflow G D u c).
  { unfold inflow, dS_. apply wsum_nonneg. intros f Hf. split; [apply Hw; exact Hf|].
    pose proof (Rmult_le_pos _ _ (ind_nonneg c (plus_of D f)) (un_nonneg (um u f))). pose proof (Rmult_le_pos _ _ (ind_nonneg c (minus_of D f)) (un_nonneg (up u f))). lra. }
  assert (P1 : dt * (inflow G D u c * (x c - hi)) <= dt * l) by (apply Rmult_le_compat_l; assumption).
  assert (P2 : dt * l <= dt * (inflow G D u c * (x c - lo))) by (apply Rmult_le_compat_l; assumption).
  assert (Q1 : 0 <= (volume G D c - dt * inflow G D u c) * (hi - x c)) by (apply Rmult_le_pos; lra).
  assert (Q2 : 0 <= (volume G D c - dt * inflow G D u c) * (x c - lo)) by (apply Rmult_le_pos; lra).
  split; apply Rmult_le_reg_l with (volume G D c); try assumption; nra.
Qed.
Print Assumptions dg0_advection_max_principle.

(** Positivity of the conservative form: no cell is emptied in a step. *)
Theorem dg0_continuity_positivity :
  forall N G D d u dt x y, cells N G D ->
  0 <= dt -> (forall c, (c < N)%nat -> dt * outflow_rate G D u c <= volume G D c) ->
  euler_step N (fun t q => upwind_continuity_form G d Once false t q u) G D dt x y ->
  (forall c, (c < N)%nat -> 0 <= x c) -> forall c, (c < N)%nat -> 0 <= y c.
Proof.
  intros N G D d u dt x y (Hm & HV) Hdt HCFL HE Hx c HcN.
  destruct (HE c HcN) as (l & Hl & Hy). specialize (HV c HcN). specialize (HCFL c HcN).
  assert (L : l <= outflow_rate G D u c * x c).
  { unfold upwind_continuity_form, assemble_form in Hl. cbn [is_never andb] in Hl.
    assert (E : l = - dx G (fun k => sv (dg0 D x) k * dot d (uv u k) (sg (dg0 D (indicator c)) k)) + upwind_flux G (dg0 D (indicator c)) (dg0 D x) u) by congruence.
    rewrite E. unfold dx at 1. rewrite wsum_0 by (intros k _; cbn; rewrite dot_0_r; ring).
    unfold upwind_flux, outflow_rate, dS_. rewrite Ropp_0, Rplus_0_l, Rmult_comm, <- wsum_scal. apply wsum_le. intros f Hf. destruct (Hm f Hf) as (Hwf & Hp & Hmi). split; [exact Hwf|]. cbn.
    pose proof (ind_val c (plus_of D f) x) as E1. pose proof (ind_val c (minus_of D f) x) as E2.
    pose proof (Rmult_le_pos _ _ (Rmult_le_pos _ _ (ind_nonneg c (plus_of D f)) (un_nonneg (um u f))) (Hx (minus_of D f) Hmi)) as P1.
    pose proof (Rmult_le_pos _ _ (Rmult_le_pos _ _ (ind_nonneg c (minus_of D f)) (un_nonneg (up u f))) (Hx (plus_of D f) Hp)) as P2.
    apply Rle_trans with (un (up u f) * (indicator c (plus_of D f) * x (plus_of D f)) + un (um u f) * (indicator c (minus_of D f) * x (minus_of D f))); [nra|].
    rewrite E1, E2. lra. }
  assert (P1 : dt * l <= dt * (outflow_rate G D u c * x c)) by (apply Rmult_le_compat_l; assumption).
  assert (Q1 : 0 <= (volume G D c - dt * outflow_rate G D u c) * x c) by (apply Rmult_le_pos; [lra|apply Hx; exact HcN]).
  apply Rmult_le_reg_l with (volume G D c); try assumption; nra.
Qed.
Print Assumptions dg0_continuity_positivity.

(** With any strong-stability-preserving Runge-Kutta scheme the bounds hold for steps up to C times the
    forward Euler limit. *)
Theorem dg0_ssprk_bounds :
  forall N G D d u A s C tau dt n store x (F : vec nat -> vec nat) lo hi,
  strong_stability_preserving A s C -> (0 < s)%nat -> 0 < tau -> 0 <= dt <= C * tau -> cells N G D ->
  normal_continuous G u -> no_normal_flow G u -> (forall c, (c < N)%nat -> divergence_theorem G d (dg0 D (indicator c)) u) ->
  (forall c, (c < N)%nat -> tau * inflow G D u c <= volume G D c) ->
  (forall x c, (c < N)%nat -> exists l, upwind_advection_form G d Once false (dg0 D (indicator c)) (dg0 D x) u = Ok l /\ volume G D c * F x c = - l) ->
  (forall c, (c < N)%nat -> lo <= x c <= hi) ->
  forall c, (c < N)%nat -> lo <= apply_increment A s no_limiter dt F no_physics n store x c <= hi.
Proof.
  intros N G D d u A s C tau dt n store x F lo hi HS Hs Ht Hdt HM Hc Hn Hd HCFL HF Hx.
  apply (ssprk_apply_keeps_convex_sets nat A s C F no_physics (fun v => forall c, (c < N)%nat -> lo <= v c <= hi) tau dt n store x); try assumption.
  - intros a b t Hr Ha Hb c HcN. specialize (Ha c HcN). specialize (Hb c HcN). vunfold. nra.
  - intros v Hv. apply (dg0_advection_max_principle N G D d u tau v _ lo hi); try assumption; [lra|].
    intros c HcN. destruct (HF v c HcN) as (l & Hl & E). exists l. split; [exact Hl|].
    unfold vadd, vscal, no_physics, vzero. replace (v c + tau * (F v c + 0) - v c) with (tau * F v c) by ring.
    transitivity (tau * (volume G D c * F v c)); [ring|]. rewrite E. ring.
Qed.
Print Assumptions dg0_ssprk_bounds.

(** Example: two cells of width 1, unit velocity between them: a step of length one fills the second cell. *)
Definition interval_cells (n : nat) : dg0_map :=
  {| cell_of := fun k => Nat.div k 3; plus_of := fun f => f; minus_of := S; bdry_of := fun e => match e with O => O | _ => n end |}.
Lemma interval_dg0_divergence n h x U : h <> 0 -> divergence_theorem (interval n h) 1 (dg0 (interval_cells n) x) (hat_velocity n h U).
Proof.
  intros Hh. pose proof (interval_divergence_theorem n h x (fun _ => 0) (fun _ => 1) (fun _ => 0) U Hh) as H.
  unfold divergence_theorem in *.
  transitivity (dx (interval n h) (div_su 1 (product (cellwise n h x (fun _ => 0)) (cellwise n h (fun _ => 1) (fun _ => 0))) (hat_velocity n h U))).
  - unfold dx. apply wsum_ext. intros k _. unfold div_su, dot. cbn. ring.
  - rewrite H. f_equal.
    + unfold dS_. apply wsum_ext. intros f _. cbn. ring.
    + unfold ds_. apply wsum_ext. intros [|e] _; cbn; ring.
Qed.
Example dg0_example :
  let G := interval 1 1 in let D := interval_cells 1 in
  let u := hat_velocity 1 1 (fun i => match i with 1%nat => 1 | _ => 0 end) in
  cells 2 G D /\ normal_continuous G u /\ no_normal_flow G u /\
  (forall c, (c < 2)%nat -> divergence_theorem G 1 (dg0 D (indicator c)) u) /\
  (forall c, (c < 2)%nat -> 1 * inflow G D u c <= volume G D c /\ 1 * outflow_rate G D u c <= volume G D c) /\
  euler_step 2 (fun t q => upwind_advection_form G 1 Once false t q u) G D 1 (indicator 0) (fun _ => 1) /\
  euler_step 2 (fun t q => upwind_continuity_form G 1 Once false t q u) G D 1 (indicator 0) (indicator 1).
Proof.
  assert (A0 : un (Ropp 1) = 0) by (unfold un; rewrite Rabs_Ropp, Rabs_R1; lra).
  assert (A1 : un 1 = 1) by (unfold un; rewrite Rabs_R1; lra).
  cbv zeta. split; [|split; [|split; [|split; [|split; [|split]]]]].
  - split.
    + intros f Hf. cbn in *. repeat split; try lia; lra.
    + intros [|[|c]] Hc; try lia; unfold volume, dx; cbn; lra.
  - intros f _. reflexivity.
  - intros [|[|e]] He; cbn in *; try lia; lra.
  - intros c _. apply interval_dg0_divergence. lra.
  - intros [|[|c]] Hc; try lia; unfold inflow, outflow_rate, volume, dx, dS_; cbn; rewrite A0, A1; lra.
  - intros [|[|c]] Hc; try lia; (eexists; split; [unfold upwind_advection_form, assemble_form; cbn [andb is_never]; reflexivity|]);
      unfold volume, upwind_flux, dx, dS_, div_su, dot; cbn; rewrite A0, A1; lra.
  - intros [|[|c]] Hc; try lia; (eexists; split; [unfold upwind_continuity_form, assemble_form; cbn [andb is_never]; reflexivity|]);
      unfold volume, upwind_flux, dx, dS_, dot; cbn; rewrite A0, A1; lra.
Qed.

(** ** C84: consistency between forms *)
(** A tracer equal to one is transported exactly as its density, for every way of integrating by parts
    and with or without outflow. *)
Theorem tracer_consistent_with_density :
  forall G d i outflow test rho u,
  upwind_tracer_conservative_form G d i outflow test one rho u = upwind_continuity_form G d i outflow test rho u.
Proof.
  intros G d i outflow test rho u. unfold upwind_tracer_conservative_form, upwind_continuity_form.
  assert (A : - dx G (fun k => sv one k * sv rho k * dot d (uv u k) (sg test k)) = - dx G (fun k => sv rho k * dot d (uv u k) (sg test k))).
  { f_equal. unfold dx. apply wsum_ext. intros. cbn. ring. }
  assert (B : dx G (fun k => sv test k * div_su d (product one rho) u k) = dx G (fun k => sv test k * div_su d rho u k)).
  { unfold dx. apply wsum_ext. intros k _. unfold div_su. cbn.
    replace (dot d (uv u k) (fun i0 => 1 * sg rho k i0 + sv rho k * 0)) with (dot d (uv u k) (sg rho k)) by (unfold dot; apply rsum_ext; intros; ring). ring. }
  rewrite A, B. unfold assemble_form.
  assert (C : upwind_flux G test (product one rho) u = upwind_flux G test rho u) by (unfold upwind_flux, dS_; apply wsum_ext; intros; cbn; ring).
  assert (D : interior_flux G test (product one rho) u = interior_flux G test rho u) by (unfold interior_flux, dS_; apply wsum_ext; intros; cbn; ring).
  assert (E : outflow_flux G test (product one rho) u = outflow_flux G test rho u) by (unfold outflow_flux, ds_; apply wsum_ext; intros; cbn; ring).
  rewrite C, D, E. reflexivity.
Qed.
Print Assumptions tracer_consistent_with_density.

(** In the plane, the circulation form does no work: tested with the transporting velocity it vanishes. *)
Theorem circulation_does_no_work :
  forall G i np nm q ubar, upwind_circulation_form G i np nm ubar q ubar = 0.
Proof.
  intros G i np nm q ubar. unfold upwind_circulation_form.
  assert (S : forall k, sv (test_perp ubar ubar) k = 0) by (intros; cbn; ring).
  assert (P : forall k, sp (test_perp ubar ubar) k = 0) by (intros; cbn; ring).
  assert (M : forall k, sm (test_perp ubar ubar) k = 0) by (intros; cbn; ring).
  assert (D : forall k j, sg (test_perp ubar ubar) k j = 0) by (intros; cbn; ring).
  assert (X : forall f, (forall k, f k = 0) -> dx G f = 0) by (intros; unfold dx; apply wsum_0; auto).
  assert (Y : forall f, (forall k, f k = 0) -> dS_ G f = 0) by (intros; unfold dS_; apply wsum_0; auto).
  destruct i; cbv zeta.
  - rewrite (X _), !(Y _); [ring| | |]; intros; rewrite ?S, ?P, ?M; ring.
  - rewrite (X _), (Y _); [ring| |]; intros; rewrite ?D, ?P, ?M; ring.
  - rewrite (X _), !(Y _); [ring| | |]; intros; rewrite ?S, ?P, ?M; ring.
Qed.
Print Assumptions circulation_does_no_work.

(** It discretises zeta perp(u), zeta the vorticity of q: exactly so for fields continuous across facets, however
    it is integrated by parts. *)
Theorem circulation_is_vorticity :
  forall G i np nm test q ubar,
  (* facet normals opposite, transporting velocity with continuous normal component *)
  (forall f j, (f < nfp G)%nat -> nm f j = - np f j) ->
  (forall f, (f < nfp G)%nat -> normal_u nm (sm (fst ubar)) (sm (snd ubar)) f = - normal_u np (sp (fst ubar)) (sp (snd ubar)) f) ->
  (* q continuous; the divergence theorem for (test . perp(u)) perp(q) *)
  (forall f, (f < nfp G)%nat -> sp (fst q) f = sm (fst q) f /\ sp (snd q) f = sm (snd q) f) ->
  (let s := test_perp test ubar in
   dx G (fun k => sg s k 0%nat * - sv (snd q) k + sg s k 1%nat * sv (fst q) k + sv s k * (- sg (snd q) k 0%nat + sg (fst q) k 1%nat))
   = dS_ G (fun f => sp s f * (- sp (snd q) f * np f 0%nat + sp (fst q) f * np f 1%nat) + sm s f * (- sm (snd q) f * nm f 0%nat + sm (fst q) f * nm f 1%nat))) ->
  upwind_circulation_form G i np nm test q ubar
  = dx G (fun k => (sg (snd q) k 0%nat - sg (fst q) k 1%nat) * (sv (fst test) k * - sv (snd ubar) k + sv (snd test) k * sv (fst ubar) k)).
Proof.
  intros G i np nm test q ubar Hn Hu Hq Hd. unfold upwind_circulation_form. cbv zeta in *. set (s := test_perp test ubar) in *.
  assert (U : forall a, upwind a + upwind (- a) = 1).
  { intros a. unfold upwind, sign. destruct (Rlt_dec 0 a), (Rlt_dec a 0), (Rlt_dec 0 (- a)), (Rlt_dec (- a) 0); lra. }
  assert (V : dx G (fun k => (sg (snd q) k 0%nat - sg (fst q) k 1%nat) * (sv (fst test) k * - sv (snd ubar) k + sv (snd test) k * sv (fst ubar) k))
            = - dx G (fun k => sv s k * (- sg (snd q) k 0%nat + sg (fst q) k 1%nat))).
  { replace (- dx G (fun k => sv s k * (- sg (snd q) k 0%nat + sg (fst q) k 1%nat))) with ((-1) * dx G (fun k => sv s k * (- sg (snd q) k 0%nat + sg (fst q) k 1%nat))) by ring.
    unfold dx. rewrite <- wsum_scal. apply wsum_ext. intros. subst s. cbn. ring. }
  set (J := dS_ G (fun f => sp s f * (- sp (snd q) f * np f 0%nat + sp (fst q) f * np f 1%nat) + sm s f * (- sm (snd q) f * nm f 0%nat + sm (fst q) f * nm f 1%nat))) in *.
  match goal with |- context [dS_ G ?g] => match g with context [upwind] => assert (FA : dS_ G g = J) end end.
  { unfold J, dS_. apply wsum_ext. intros f Hf. destruct (Hq f Hf) as [E0 E1]. rewrite <- E0, <- E1.
    assert (X : upwind (normal_u np (sp (fst ubar)) (sp (snd ubar)) f) + upwind (normal_u nm (sm (fst ubar)) (sm (snd ubar)) f) = 1) by (rewrite (Hu f Hf); apply U).
    revert X. generalize (upwind (normal_u np (sp (fst ubar)) (sp (snd ubar)) f)) (upwind (normal_u nm (sm (fst ubar)) (sm (snd ubar)) f)). intros a b X.
    replace b with (1 - a) by lra. ring. }
  assert (W : dx G (fun k => - sg s k 1%nat * sv (fst q) k + sg s k 0%nat * sv (snd q) k) = dx G (fun k => sv s k * (- sg (snd q) k 0%nat + sg (fst q) k 1%nat)) - J).
  { rewrite <- Hd. unfold dx. apply Rplus_eq_reg_r with (rsum (ncp G) (fun k => cw G k * (sg s k 0%nat * - sv (snd q) k + sg s k 1%nat * sv (fst q) k + sv s k * (- sg (snd q) k 0%nat + sg (fst q) k 1%nat)))).
    rewrite <- wsum_add. ring_simplify. apply wsum_ext. intros. ring. }
  rewrite V. destruct i; rewrite FA; try rewrite W; ring.
Qed.
Print Assumptions circulation_is_vorticity.

(** Example: two cells in a periodic channel, q = (0, g(x)) with g a tent, u = (0, 1), test = (1, 0) in the first cell. *)
Example circulation_example :
  let G := {| ncp := 2; cw := fun _ => 1; nfp := 2; fw := fun _ => 1; nbp := 0; bw := fun _ => 0 |} in
  let np := fun (f j : nat) => match j with O => 1 | _ => 0 end in let nm := fun f j => - np f j in
  let tent := {| sv := fun _ => 1/2; sg := fun k i => match k, i with O, O => 1 | S _, O => -1 | _, _ => 0 end;
                 sp := fun f => match f with O => 1 | _ => 0 end; sm := fun f => match f with O => 1 | _ => 0 end; sb := fun _ => 0 |} in
  let test := (dg0 {| cell_of := fun k => k; plus_of := fun f => f; minus_of := fun f => (1 - f)%nat; bdry_of := fun b => b |} (indicator 0), constant 0) in
  let q := (constant 0, tent) in let ubar := (constant 0, constant 1) in
  (forall f j, (f < nfp G)%nat -> nm f j = - np f j) /\
  (forall f, (f < nfp G)%nat -> normal_u nm (sm (fst ubar)) (sm (snd ubar)) f = - normal_u np (sp (fst ubar)) (sp (snd ubar)) f) /\
  (forall f, (f < nfp G)%nat -> sp (fst q) f = sm (fst q) f /\ sp (snd q) f = sm (snd q) f) /\
  (let s := test_perp test ubar in
   dx G (fun k => sg s k 0%nat * - sv (snd q) k + sg s k 1%nat * sv (fst q) k + sv s k * (- sg (snd q) k 0%nat + sg (fst q) k 1%nat))
   = dS_ G (fun f => sp s f * (- sp (snd q) f * np f 0%nat + sp (fst q) f * np f 1%nat) + sm s f * (- sm (snd q) f * nm f 0%nat + sm (fst q) f * nm f 1%nat))) /\
  upwind_circulation_form G Once np nm test q ubar = -1.
Proof.
  intros G np nm tent test q ubar.
  assert (H1 : forall f j, (f < nfp G)%nat -> nm f j = - np f j) by reflexivity.
  assert (H2 : forall f, (f < nfp G)%nat -> normal_u nm (sm (fst ubar)) (sm (snd ubar)) f = - normal_u np (sp (fst ubar)) (sp (snd ubar)) f) by (intros; unfold normal_u, nm, np; cbn; ring).
  assert (H3 : forall f, (f < nfp G)%nat -> sp (fst q) f = sm (fst q) f /\ sp (snd q) f = sm (snd q) f) by (intros; split; reflexivity).
  assert (H4 : let s := test_perp test ubar in
   dx G (fun k => sg s k 0%nat * - sv (snd q) k + sg s k 1%nat * sv (fst q) k + sv s k * (- sg (snd q) k 0%nat + sg (fst q) k 1%nat))
   = dS_ G (fun f => sp s f * (- sp (snd q) f * np f 0%nat + sp (fst q) f * np f 1%nat) + sm s f * (- sm (snd q) f * nm f 0%nat + sm (fst q) f * nm f 1%nat))).
  { cbv zeta. unfold dx, dS_, nm, np. cbn. field. }
  split; [exact H1|]. split; [exact H2|]. split; [exact H3|]. split; [exact H4|].
  rewrite (circulation_is_vorticity G Once np nm test q ubar H1 H2 H3 H4). unfold dx. cbn. field.
Qed.

(** ** C85: choosing and preparing the scheme *)
(** Off one-dimensional meshes every equation type gives the form of that type, with the options asked for;
    options that a form lacks are refused. *)
Theorem dg_upwind_selects :
  forall ty manifold outflow atf b, dg_upwind false ty manifold outflow atf = Ok b ->
  (atf = true -> ty = Conservative) /\
  match ty with
  | Advective => b = Some (if manifold then B_manifold_advection outflow else B_advection outflow)
  | Conservative => b = Some (if manifold then B_manifold_continuity outflow atf else B_continuity outflow atf)
  | Circulation => b = Some B_circulation /\ outflow = false
  | VectorInvariant => b = Some B_vector_invariant /\ outflow = false
  | TracerConservative => b = Some B_mass_weighted
  end.
Proof. intros [] [] [] [] b H; cbn in H; try discriminate H; injection H as <-; repeat split; try discriminate; reflexivity. Qed.
Print Assumptions dg_upwind_selects.
(** On a one-dimensional mesh: other equation types are not refused properly, and advective_then_flux is dropped;
    outflow is accepted there, and for conservative tracers, and has no effect. *)
Theorem dg_upwind_options_refuted :
  (dg_upwind true TracerConservative false false false = Ok None) /\
  (dg_upwind true Conservative false false true = dg_upwind true Conservative false false false) /\
  (dg_upwind false TracerConservative false true false = dg_upwind false TracerConservative false false false) /\
  (forall G test q u, upwind_continuity_form_1d G Once true test q u = upwind_continuity_form_1d G Once false test q u /\
                      upwind_advection_form_1d G Once true test q u = upwind_advection_form_1d G Once false test q u) /\
  (exists G d q u, upwind_continuity_form G d Once true one q u = Ok 1 /\ upwind_continuity_form_1d G Once true one q u = Ok 0).
Proof.
  repeat split.
  exists (interval 0 1), 1%nat, one, (hat_velocity 0 1 (fun i => match i with O => 0 | _ => 1 end)).
  destruct (continuity_form_conserves (interval 0 1) 1 one one (hat_velocity 0 1 (fun i => match i with O => 0 | _ => 1 end))) as (_ & _ & H3 & H4).
  split; [|exact H3]. rewrite H4. unfold ds_. cbn. rewrite !un_pos by lra. f_equal. lra.
Qed.
Print Assumptions dg_upwind_options_refuted.

(** The transporting velocity reaches the whole of the ordinary forms. *)
Theorem transporting_velocity_used :
  forall (U : Type) (zero uadv : U) (value : U -> R) a t,
  replaced U (upwind_terms U value a) = Some t -> with_velocity U zero t uadv = value uadv.
Proof.
  intros U zero uadv value a t H. injection H as <-. unfold with_velocity. cbn. rewrite Nat.eqb_refl. ring.
Qed.
Print Assumptions transporting_velocity_used.
(** With vector_manifold_correction it does not: the advective form is evaluated without any correction, and
    the conservative form transports with zero velocity. *)
Theorem vector_manifold_correction_refuted :
  forall (U : Type) (zero uadv : U) (value corr1 corr2 : U -> R) a b t t', a <> b ->
  replaced U (manifold_advection_terms U value corr1 corr2 a b) = Some t ->
  replaced U (manifold_continuity_terms U value corr1 corr2 a b) = Some t' ->
  with_velocity U zero t uadv = value uadv + corr1 zero + corr2 zero /\
  with_velocity U zero t' uadv = value zero + corr1 uadv + corr2 uadv.
Proof.
  intros U zero uadv value corr1 corr2 a b t t' Hab H H'. injection H as <-. injection H' as <-. unfold with_velocity. cbn.
  rewrite !Nat.eqb_refl. destruct (Nat.eqb_spec b a), (Nat.eqb_spec a b); try congruence. split; ring.
Qed.
Print Assumptions vector_manifold_correction_refuted.
(** e.g. corrections of the form |u.n| c vanish at zero, and so does the form itself *)
Example vector_manifold_example :
  let value := fun u : R => 3 * u in let corr := fun u : R => un u * 5 in
  exists t t', replaced R (manifold_advection_terms R value corr corr 0 1) = Some t /\
    replaced R (manifold_continuity_terms R value corr corr 0 1) = Some t' /\
    with_velocity R 0 t 2 = value 2 /\ with_velocity R 0 t' 2 = corr 2 + corr 2.
Proof.
  cbv zeta. do 2 eexists. split; [reflexivity|]. split; [reflexivity|].
  unfold with_velocity. cbn. assert (un 0 = 0) by (rewrite un_pos; lra). rewrite H. split; lra.
Qed.
