(** Theorems about hydrostatic initialisation: C104-C107. *)
From Coq Require Import Reals Lra Lia FunctionalExtensionality.
From Verif Require Import Base Vec Transport CommonForms CommonFormsProps Equations EquationsProps Thermo ThermoProps Compressible CompressibleProps Hydrostatic.
Open Scope R_scope.

(** ** Integration in the column *)
Lemma rsum_triples N f : rsum (3 * N) f = rsum N (fun c => f (3 * c)%nat + f (3 * c + 1)%nat + f (3 * c + 2)%nat).
Proof.
  induction N as [|N IH]; [reflexivity|]. replace (3 * S N)%nat with (S (S (S (3 * N)))) by lia. cbn [rsum]. rewrite IH.
  replace (S (3 * N)) with (3 * N + 1)%nat by lia. replace (S (3 * N + 1)) with (3 * N + 2)%nat by lia. ring.
Qed.
Lemma div3 c j : (j < 3)%nat -> ((3 * c + j) / 3 = c)%nat.
Proof. intros H. rewrite Nat.mul_comm, Nat.div_add_l by lia. rewrite Nat.div_small by lia. lia. Qed.
Lemma mod3 c j : (j < 3)%nat -> ((3 * c + j) mod 3 = j)%nat.
Proof. intros H. rewrite Nat.add_comm, Nat.mul_comm, Nat.mod_add by lia. apply Nat.mod_small. lia. Qed.
Lemma div3_0 c : ((3 * c) / 3 = c)%nat. Proof. rewrite <- (Nat.add_0_r (3 * c)). apply div3. lia. Qed.
Lemma mod3_0 c : ((3 * c) mod 3 = 0)%nat. Proof. rewrite <- (Nat.add_0_r (3 * c)). apply mod3. lia. Qed.
Ltac d3 := rewrite ?div3_0, ?mod3_0, ?(div3 _ 1), ?(div3 _ 2), ?(mod3 _ 1), ?(mod3 _ 2) by lia.

Lemma column_dx N z f : dx (column_geometry N z) f = rsum N (fun c => thickness z c / 6 * (f (3 * c)%nat + 4 * f (3 * c + 1)%nat + f (3 * c + 2)%nat)).
Proof.
  unfold dx, column_geometry. cbn [ncp cw]. rewrite rsum_triples. apply rsum_ext. intros c _. d3. unfold simpson. field.
Qed.
(** f is evaluated at the quadrature points of cell c *)
Ltac points := unfold p1_val, p1_slope; d3; cbv iota.
Lemma int_dg0_div N z x th a : (forall c, (c < N)%nat -> 0 < thickness z c) ->
  dx (column_geometry N z) (fun k => div_prod 1 (p1 N z th) (vertical_velocity N z a) k * x (k / 3)%nat) = rsum N (fun c => x c * (th (S c) * a (S c) - th c * a c)).
Proof.
  intros Hh. rewrite column_dx. apply rsum_ext. intros c Hc. specialize (Hh c Hc). unfold div_prod, vdot, v_div. cbn [rsum p1 vertical_velocity sv sg u_at v_val v_grad].
  points. field. lra.
Qed.
Lemma int_div N z x a : (forall c, (c < N)%nat -> 0 < thickness z c) ->
  dx (column_geometry N z) (fun k => v_div 1 (u_at (vertical_velocity N z a) k) * x (k / 3)%nat) = rsum N (fun c => x c * (a (S c) - a c)).
Proof.
  intros Hh. rewrite column_dx. apply rsum_ext. intros c Hc. specialize (Hh c Hc). unfold v_div. cbn [rsum vertical_velocity u_at v_grad].
  points. field. lra.
Qed.
Lemma int_dot N z a b :
  dx (column_geometry N z) (w_dot 1 (vertical_velocity N z a) (vertical_velocity N z b))
  = rsum N (fun c => thickness z c * (2 * a c * b c + a c * b (S c) + a (S c) * b c + 2 * a (S c) * b (S c)) / 6).
Proof.
  rewrite column_dx. apply rsum_ext. intros c _. unfold w_dot, vdot. cbn [rsum vertical_velocity u_at v_val]. points. field.
Qed.
Lemma int_k N z a :
  dx (column_geometry N z) (fun k => vdot 1 (v_val (u_at (vertical_velocity N z a) k)) (upward k)) = rsum N (fun c => thickness z c * (a c + a (S c)) / 2).
Proof.
  rewrite column_dx. apply rsum_ext. intros c _. unfold vdot, upward. cbn [rsum vertical_velocity u_at v_val]. points. field.
Qed.
Lemma rsum_indicator N c f : (c < N)%nat -> rsum N (fun k => (if Nat.eqb k c then 1 else 0) * f k) = f c.
Proof.
  induction N as [|N IH]; [lia|]. intros H. cbn [rsum]. destruct (Nat.eqb_spec N c) as [->|Hn].
  - rewrite rsum_0; [ring|]. intros k Hk. destruct (Nat.eqb_spec k c); [lia|ring].
  - rewrite IH by lia. ring.
Qed.
(** the flux th a through all the levels vanishes if its weak divergence does and it vanishes at one level *)
Lemma no_divergence_no_flow N th a : (forall x, rsum N (fun c => x c * (th (S c) * a (S c) - th c * a c)) = 0) ->
  forall i, (i <= N)%nat -> th i * a i = th 0%nat * a 0%nat.
Proof.
  intros H. induction i as [|i IH]; [reflexivity|]. intros Hi.
  pose proof (H (fun k => if Nat.eqb k i then 1 else 0)) as E. cbv beta in E.
  rewrite (rsum_indicator N i (fun c => th (S c) * a (S c) - th c * a c)) in E by lia. rewrite <- IH by lia. lra.
Qed.

(** ** C104.  The Exner pressure of compressible_hydrostatic_balance in a column *)
Definition increasing (N : nat) (z : nat -> R) : Prop := forall c, (c < N)%nat -> z c < z (S c).
Lemma increasing_thickness N z : increasing N z -> forall c, (c < N)%nat -> 0 < thickness z c.
Proof. intros H c Hc. specialize (H c Hc). unfold thickness. lra. Qed.
Definition solves_exner (P : cparams) (g : R) (N : nat) (z : nat -> R) (top : bool) (th : nat -> R) (exb : R) (v ex : nat -> R) : Prop :=
  exner_solution (column_geometry N z) 1 upward column_side (column_Vv N z) (column_VDG N) P g top (p1 N z th) None (fun _ => exb)
                 (vertical_velocity N z v) (dg0_column N ex).
(** The discrete hydrostatic equation: c_p theta dPi/dz = - g at every level, and half a layer to the boundary where Pi is given.
    The middle of layer c is at (z c + z (c+1))/2. *)
Definition z_mid (z : nat -> R) (c : nat) : R := (z c + z (S c)) / 2.
Definition hydrostatic_exner (P : cparams) (g : R) (N : nat) (z : nat -> R) (top : bool) (th : nat -> R) (exb : R) (ex : nat -> R) : Prop :=
  (forall i, (0 < i < N)%nat -> cp P * th i * (ex i - ex (i - 1)%nat) = - g * (z_mid z i - z_mid z (i - 1))) /\
  (if top then cp P * th N * (exb - ex (N - 1)%nat) = - g * (z N - z_mid z (N - 1)) else cp P * th 0%nat * (ex 0%nat - exb) = - g * (z_mid z 0 - z 0%nat)).

Definition weak_exner (P : cparams) (g : R) (N : nat) (z : nat -> R) (top : bool) (th : nat -> R) (exb : R) (v ex : nat -> R) : Prop :=
  forall dv x, dv (if top then 0%nat else N) = 0 ->
  cp P * rsum N (fun c => thickness z c * (2 * v c * dv c + v c * dv (S c) + v (S c) * dv c + 2 * v (S c) * dv (S c)) / 6)
  - cp P * rsum N (fun c => ex c * (th (S c) * dv (S c) - th c * dv c)) + rsum N (fun c => x c * (th (S c) * v (S c) - th c * v c))
  = - (if top then cp P * dv N * th N * exb else cp P * - dv 0%nat * th 0%nat * exb) - g * rsum N (fun c => thickness z c * (dv c + dv (S c)) / 2).
Lemma dx_opp G f : dx G (fun k => - f k) = - dx G f.
Proof. unfold dx. rewrite (rsum_ext _ _ (fun k => -(1) * (cw G k * f k))) by (intros; ring). rewrite rsum_scal. ring. Qed.
Lemma exner_forms N z P g top th exb v ex dv x : (forall c, (c < N)%nat -> 0 < thickness z c) ->
  exner_lhs (column_geometry N z) 1 P (p1 N z th) (vertical_velocity N z v) (dg0_column N ex) (vertical_velocity N z dv) (dg0_column N x)
  = cp P * rsum N (fun c => thickness z c * (2 * v c * dv c + v c * dv (S c) + v (S c) * dv c + 2 * v (S c) * dv (S c)) / 6)
    - cp P * rsum N (fun c => ex c * (th (S c) * dv (S c) - th c * dv c)) + rsum N (fun c => x c * (th (S c) * v (S c) - th c * v c)) /\
  exner_rhs (column_geometry N z) 1 upward column_side P g top (p1 N z th) (fun _ => exb) (vertical_velocity N z dv)
  = - (if top then cp P * dv N * th N * exb else cp P * - dv 0%nat * th 0%nat * exb) - g * rsum N (fun c => thickness z c * (dv c + dv (S c)) / 2).
Proof.
  intros Hh. split.
  - unfold exner_lhs. rewrite <- int_dot, <- (int_dg0_div N z ex th dv Hh), <- (int_dg0_div N z x th v Hh). rewrite <- !dx_scale.
    assert (E : forall a b, a - b = a + - b) by (intros; ring). rewrite E, <- dx_opp, <- !dx_plus.
    apply dx_ext; intros k; cbn [dg0_column sv]; ring.
  - unfold exner_rhs. rewrite int_k. f_equal. f_equal. unfold ds_part, ds_. cbn [column_geometry nbp bw rsum column_side].
    destruct top; cbn [bmeasure side_eqb vertical_velocity u_nb p1 sb]; ring.
Qed.
Lemma solves_exner_iff_weak P g N z top th exb v ex : (forall c, (c < N)%nat -> 0 < thickness z c) ->
  (solves_exner P g N z top th exb v ex <-> v (if top then 0%nat else N) = 0 /\ weak_exner P g N z top th exb v ex).
Proof.
  intros Hh. unfold solves_exner, exner_solution.
  assert (NF : forall a, no_flow (column_geometry N z) column_side (bstring top) (vertical_velocity N z a) <-> a (if top then 0%nat else N) = 0).
  { intros a. unfold no_flow, column_geometry, vertical_velocity. cbn [nbp u_nb]. split.
    - intros H. destruct top; [specialize (H 0%nat ltac:(lia) eq_refl); cbn in H; lra|exact (H 1%nat ltac:(lia) eq_refl)].
    - intros H b Hb Hs. destruct b as [|[|b]]; [| |lia]; destruct top; cbn in Hs; try discriminate; cbv iota; lra. }
  rewrite NF. split.
  - intros (_ & _ & Hv & H). split; [exact Hv|]. intros dv x Hdv.
    specialize (H (vertical_velocity N z dv) (dg0_column N x) (ex_intro _ dv eq_refl) (ex_intro _ x eq_refl) (proj2 (NF dv) Hdv)).
    destruct (exner_forms N z P g top th exb v ex dv x Hh) as [E1 E2]. cbn [moist_theta] in H. rewrite E1, E2 in H. exact H.
  - intros [Hv H]. split; [exists v; reflexivity|]. split; [exists ex; reflexivity|]. split; [exact Hv|].
    intros dv dex [a ->] [x ->] Hn. destruct (exner_forms N z P g top th exb v ex a x Hh) as [E1 E2]. cbn [moist_theta]. rewrite E1, E2.
    apply H. apply NF. exact Hn.
Qed.
(** the hat function of level i *)
Definition hat_at (i : nat) : nat -> R := fun k => if Nat.eqb k i then 1 else 0.
Lemma hat_same i : hat_at i i = 1. Proof. unfold hat_at. rewrite Nat.eqb_refl. reflexivity. Qed.
Lemma hat_other i k : k <> i -> hat_at i k = 0. Proof. intros H. unfold hat_at. destruct (Nat.eqb_spec k i); [contradiction|reflexivity]. Qed.
(** sums of cellwise functions against the hat function of a level *)
Lemma rsum_one N f c : (c < N)%nat -> (forall k, (k < N)%nat -> k <> c -> f k = 0) -> rsum N f = f c.
Proof.
  intros Hc H. rewrite <- (rsum_indicator N c f Hc). apply rsum_ext. intros k Hk. destruct (Nat.eqb_spec k c) as [->|n]; [ring|]. rewrite H by assumption. ring.
Qed.
Lemma rsum_two N f c : (S c < N)%nat -> (forall k, (k < N)%nat -> k <> c -> k <> S c -> f k = 0) -> rsum N f = f c + f (S c).
Proof.
  intros Hc H. rewrite <- (rsum_indicator N c f) by lia. rewrite <- (rsum_indicator N (S c) f Hc) at 1. rewrite Rplus_comm at 1. rewrite <- rsum_add. apply rsum_ext. intros k Hk.
  destruct (Nat.eqb_spec k c) as [->|n1]; [destruct (Nat.eqb_spec c (S c)); [lia|ring]|].
  destruct (Nat.eqb_spec k (S c)) as [->|n2]; [ring|]. rewrite H by assumption. ring.
Qed.

Lemma prefix_invariant P g N z th exb ex dv : (forall i, (0 < i < N)%nat -> cp P * th i * (ex i - ex (i - 1)%nat) = - g * (z_mid z i - z_mid z (i - 1))) ->
  forall n, (0 < n <= N)%nat ->
  - cp P * rsum n (fun c => ex c * (th (S c) * dv (S c) - th c * dv c)) + g * rsum n (fun c => thickness z c * (dv c + dv (S c)) / 2)
  = - cp P * ex (n - 1)%nat * th n * dv n + g * thickness z (n - 1) * dv n / 2
    + dv 0%nat * (cp P * th 0%nat * ex 0%nat + g * thickness z 0 / 2) + 0 * exb.
Proof.
  intros H. induction n as [|n IH]; [lia|]. intros Hn. cbn [rsum]. destruct n as [|n].
  - cbn [rsum]. replace (1 - 1)%nat with 0%nat by lia. field.
  - rewrite !Rmult_plus_distr_l. specialize (IH ltac:(lia)). specialize (H (S n) ltac:(lia)). unfold z_mid in H.
    replace (S (S n) - 1)%nat with (S n) in * by lia. replace (S n - 1)%nat with n in * by lia.
    assert (K : dv (S n) * (cp P * th (S n) * (ex (S n) - ex n)) = dv (S n) * (- g * ((z (S n) + z (S (S n))) / 2 - (z n + z (S n)) / 2))) by (rewrite H; reflexivity).
    unfold thickness in *. lra.
Qed.
(** The solution is unique: the vertical velocity vanishes and the Exner pressure is in discrete hydrostatic balance with the
    given value at the chosen boundary.  Conversely such a pressure is a solution. *)
Theorem exner_column_hydrostatic : forall P g N z top th exb v ex,
  (0 < N)%nat -> increasing N z -> (forall i, (i <= N)%nat -> th i <> 0) ->
  (solves_exner P g N z top th exb v ex <-> (forall i, (i <= N)%nat -> v i = 0) /\ hydrostatic_exner P g N z top th exb ex).
Proof.
  intros P g N z top th exb v ex HN Hz Hth. pose proof (increasing_thickness N z Hz) as Hh.
  rewrite (solves_exner_iff_weak P g N z top th exb v ex Hh). split.
  - intros [Hv W].
    assert (V : forall i, (i <= N)%nat -> v i = 0).
    { assert (F : forall i, (i <= N)%nat -> th i * v i = th 0%nat * v 0%nat).
      { apply no_divergence_no_flow. intros x. pose proof (W (fun _ => 0) x) as E. specialize (E ltac:(destruct top; reflexivity)).
        rewrite (rsum_0 N) in E by (intros; field). rewrite (rsum_0 N (fun c => ex c * _)) in E by (intros; ring).
        rewrite (rsum_0 N (fun c => thickness z c * (0 + 0) / 2)) in E by (intros; field). destruct top; lra. }
      assert (Z : th 0%nat * v 0%nat = 0).
      { destruct top; [rewrite Hv; ring|]. rewrite <- (F N) by lia. rewrite Hv. ring. }
      intros i Hi. specialize (F i Hi). rewrite Z in F. destruct (Rmult_integral _ _ F) as [E|E]; [|exact E]. exfalso. exact (Hth i Hi E). }
    split; [exact V|].
    assert (W' : forall dv, dv (if top then 0%nat else N) = 0 -> - cp P * rsum N (fun c => ex c * (th (S c) * dv (S c) - th c * dv c))
       = - (if top then cp P * dv N * th N * exb else cp P * - dv 0%nat * th 0%nat * exb) - g * rsum N (fun c => thickness z c * (dv c + dv (S c)) / 2)).
    { intros dv Hdv. pose proof (W dv (fun _ => 0) Hdv) as E.
      rewrite (rsum_0 N) in E by (intros c Hc; rewrite !V by lia; field). rewrite (rsum_0 N (fun c => 0 * _)) in E by (intros; ring). lra. }
    split.
    + intros i Hi. pose proof (W' (hat_at i)) as E. specialize (E ltac:(destruct top; apply hat_other; lia)).
      destruct i as [|i]; [lia|]. replace (S i - 1)%nat with i by lia.
      rewrite (rsum_two N (fun c => ex c * _) i) in E by (try lia; intros k Hk H1 H2; rewrite !hat_other by lia; ring).
      rewrite (rsum_two N (fun c => thickness z c * _ / 2) i) in E by (try lia; intros k Hk H1 H2; rewrite !hat_other by lia; field).
      rewrite !hat_same, !(hat_other (S i) i), !(hat_other (S i) (S (S i))), !(hat_other (S i) 0), !(hat_other (S i) N) in E by lia.
      unfold z_mid. unfold thickness in E. destruct top; lra.
    + destruct top.
      * pose proof (W' (hat_at N)) as E. specialize (E ltac:(apply hat_other; lia)).
        rewrite (rsum_one N (fun c => ex c * _) (N - 1)) in E by (try lia; intros k Hk H1; rewrite !hat_other by lia; ring).
        rewrite (rsum_one N (fun c => thickness z c * _ / 2) (N - 1)) in E by (try lia; intros k Hk H1; rewrite !hat_other by lia; field).
        replace (S (N - 1)) with N in E by lia. rewrite !hat_same, !(hat_other N (N - 1)) in E by lia.
        unfold z_mid. unfold thickness in E. replace (S (N - 1)) with N in * by lia. lra.
      * pose proof (W' (hat_at 0)) as E. specialize (E ltac:(apply hat_other; lia)).
        rewrite (rsum_one N (fun c => ex c * _) 0) in E by (try lia; intros k Hk H1; rewrite !hat_other by lia; ring).
        rewrite (rsum_one N (fun c => thickness z c * _ / 2) 0) in E by (try lia; intros k Hk H1; rewrite !hat_other by lia; field).
        rewrite !hat_same, !(hat_other 0 1) in E by lia. unfold z_mid. unfold thickness in E. lra.
  - intros [V [HI HB]]. split; [apply V; destruct top; lia|]. intros dv x Hdv.
    rewrite (rsum_0 N) by (intros c Hc; rewrite !V by lia; field). rewrite (rsum_0 N (fun c => x c * _)) by (intros c Hc; rewrite !V by lia; ring).
    pose proof (prefix_invariant P g N z th exb ex dv HI N ltac:(lia)) as E. unfold z_mid, thickness in *.
    destruct top.
    + replace (S (N - 1)) with N in * by lia. rewrite Hdv in *.
      assert (K : dv N * (cp P * th N * (exb - ex (N - 1)%nat)) = dv N * (- g * (z N - (z (N - 1)%nat + z N) / 2))) by (rewrite HB; reflexivity). lra.
    + rewrite Hdv in *.
      assert (K : dv 0%nat * (cp P * th 0%nat * (ex 0%nat - exb)) = dv 0%nat * (- g * ((z 0%nat + z 1%nat) / 2 - z 0%nat))) by (rewrite HB; reflexivity). lra.
Qed.
Print Assumptions exner_column_hydrostatic.

(** such a pressure always exists and is unique *)
Theorem exner_column_exists_unique : forall P g N z top th exb,
  (0 < N)%nat -> increasing N z -> cp P <> 0 -> (forall i, (i <= N)%nat -> th i <> 0) ->
  (exists v ex, solves_exner P g N z top th exb v ex) /\
  (forall v ex v' ex', solves_exner P g N z top th exb v ex -> solves_exner P g N z top th exb v' ex' ->
     (forall i, (i <= N)%nat -> v i = v' i) /\ (forall c, (c < N)%nat -> ex c = ex' c)).
Proof.
  intros P g N z top th exb HN Hz Hcp Hth. split.
  - set (step := fun i => g * (z_mid z i - z_mid z (i - 1)) / (cp P * th i)).
    set (ex := fun e0 c => e0 - rsum c (fun i => step (S i))).
    set (e0 := if top then exb + g * (z N - z_mid z (N - 1)) / (cp P * th N) + rsum (N - 1) (fun i => step (S i)) else exb - g * (z_mid z 0 - z 0%nat) / (cp P * th 0%nat)).
    exists (fun _ => 0), (ex e0). apply exner_column_hydrostatic; [assumption..|]. split; [reflexivity|]. split.
    + intros i Hi. destruct i as [|i]; [lia|]. replace (S i - 1)%nat with i by lia. unfold ex. cbn [rsum]. unfold step at 2. replace (S i - 1)%nat with i by lia.
      pose proof (Hth (S i) ltac:(lia)). field. split; assumption.
    + unfold ex, e0. destruct top.
      * pose proof (Hth N ltac:(lia)). field. split; assumption.
      * cbn [rsum]. pose proof (Hth 0%nat ltac:(lia)). field. split; assumption.
  - intros v ex v' ex' S1 S2. apply exner_column_hydrostatic in S1; [|assumption..]. apply exner_column_hydrostatic in S2; [|assumption..].
    destruct S1 as [V1 [I1 B1]], S2 as [V2 [I2 B2]]. split; [intros i Hi; rewrite V1, V2 by assumption; reflexivity|].
    assert (D : forall c, (c < N)%nat -> ex c - ex' c = ex 0%nat - ex' 0%nat).
    { induction c as [|c IH]; [reflexivity|]. intros Hc. rewrite <- IH by lia. specialize (I1 (S c) ltac:(lia)). specialize (I2 (S c) ltac:(lia)).
      replace (S c - 1)%nat with c in * by lia. pose proof (Hth (S c) ltac:(lia)) as T.
      apply (Rmult_eq_reg_l (cp P * th (S c))); [|apply Rmult_integral_contrapositive_currified; assumption]. lra. }
    intros c Hc. specialize (D c Hc) as Dc. destruct top.
    + specialize (D (N - 1)%nat ltac:(lia)). pose proof (Hth N ltac:(lia)) as T.
      assert (ex (N - 1)%nat = ex' (N - 1)%nat); [|lra].
      apply (Rmult_eq_reg_l (cp P * th N)); [|apply Rmult_integral_contrapositive_currified; assumption]. lra.
    + pose proof (Hth 0%nat ltac:(lia)) as T. assert (ex 0%nat = ex' 0%nat); [|lra].
      apply (Rmult_eq_reg_l (cp P * th 0%nat)); [|apply Rmult_integral_contrapositive_currified; assumption]. lra.
Qed.
(** For uniform potential temperature the result is the exact hydrostatic Exner pressure in the middle of each layer, on any
    (nonuniform) column. *)
Theorem exner_column_isentropic_exact : forall P g N z top th0 exb v ex,
  (0 < N)%nat -> increasing N z -> cp P <> 0 -> th0 <> 0 ->
  solves_exner P g N z top (fun _ => th0) exb v ex ->
  forall c, (c < N)%nat -> ex c = exb - g / (cp P * th0) * (z_mid z c - z (if top then N else 0%nat)).
Proof.
  intros P g N z top th0 exb v ex HN Hz Hcp Hth S1. apply exner_column_hydrostatic in S1; [|assumption|assumption|intros; assumption].
  destruct S1 as [_ [I1 B1]].
  assert (D : forall c, (c < N)%nat -> ex c = ex 0%nat - g / (cp P * th0) * (z_mid z c - z_mid z 0)).
  { induction c as [|c IH]; [intros; ring|]. intros Hc. specialize (I1 (S c) ltac:(lia)). replace (S c - 1)%nat with c in * by lia. specialize (IH ltac:(lia)).
    apply (Rmult_eq_reg_l (cp P * th0)); [|apply Rmult_integral_contrapositive_currified; assumption].
    replace (cp P * th0 * (ex 0%nat - g / (cp P * th0) * (z_mid z (S c) - z_mid z 0))) with (cp P * th0 * ex 0%nat - g * (z_mid z (S c) - z_mid z 0)) by (field; split; assumption).
    assert (K : cp P * th0 * ex c = cp P * th0 * ex 0%nat - g * (z_mid z c - z_mid z 0)) by (rewrite IH; field; split; assumption). lra. }
  intros c Hc. rewrite (D c Hc). destruct top.
  - specialize (D (N - 1)%nat ltac:(lia)). 
    apply (Rmult_eq_reg_l (cp P * th0)); [|apply Rmult_integral_contrapositive_currified; assumption].
    assert (K : cp P * th0 * ex (N - 1)%nat = cp P * th0 * ex 0%nat - g * (z_mid z (N - 1) - z_mid z 0)) by (rewrite D; field; split; assumption).
    replace (cp P * th0 * (ex 0%nat - g / (cp P * th0) * (z_mid z c - z_mid z 0))) with (cp P * th0 * ex 0%nat - g * (z_mid z c - z_mid z 0)) by (field; split; assumption).
    replace (cp P * th0 * (exb - g / (cp P * th0) * (z_mid z c - z N))) with (cp P * th0 * exb - g * (z_mid z c - z N)) by (field; split; assumption). lra.
  - apply (Rmult_eq_reg_l (cp P * th0)); [|apply Rmult_integral_contrapositive_currified; assumption].
    replace (cp P * th0 * (ex 0%nat - g / (cp P * th0) * (z_mid z c - z_mid z 0))) with (cp P * th0 * ex 0%nat - g * (z_mid z c - z_mid z 0)) by (field; split; assumption).
    replace (cp P * th0 * (exb - g / (cp P * th0) * (z_mid z c - z 0%nat))) with (cp P * th0 * exb - g * (z_mid z c - z 0%nat)) by (field; split; assumption). lra.
Qed.
(** The Exner pressure decreases with height. *)
Theorem exner_column_decreasing : forall P g N z top th exb v ex,
  (0 < N)%nat -> increasing N z -> 0 < cp P -> 0 < g -> (forall i, (i <= N)%nat -> 0 < th i) ->
  solves_exner P g N z top th exb v ex -> forall i, (0 < i < N)%nat -> ex i < ex (i - 1)%nat.
Proof.
  intros P g N z top th exb v ex HN Hz Hcp Hg Hth S1 i Hi.
  apply exner_column_hydrostatic in S1; [|assumption|assumption|intros j Hj; specialize (Hth j Hj); lra].
  destruct S1 as [_ [I1 _]]. specialize (I1 i Hi). destruct i as [|i]; [lia|]. replace (S i - 1)%nat with i in * by lia.
  pose proof (Hz i ltac:(lia)). pose proof (Hz (S i) ltac:(lia)). unfold z_mid in I1. pose proof (Hth (S i) ltac:(lia)).
  assert (A : 0 < cp P * th (S i)) by (apply Rmult_lt_0_compat; assumption).
  assert (B : - g * ((z (S i) + z (S (S i))) / 2 - (z i + z (S i)) / 2) < 0).
  { rewrite <- (Rmult_0_r (- g)). apply Rmult_lt_gt_compat_neg_l; lra. }
  rewrite <- I1 in B. destruct (Rlt_le_dec (ex (S i)) (ex i)) as [L|L]; [exact L|]. exfalso.
  assert (0 <= cp P * th (S i) * (ex (S i) - ex i)) by (apply Rmult_le_pos; lra). lra.
Qed.
(** The interpolated density has the computed Exner pressure, at the middle of each layer. *)
Theorem interpolated_density_exner : forall P th ex c, admissible P -> 0 < th c -> 0 < th (S c) -> 0 < ex c ->
  exner_pressure P (rho_interpolated P th ex c) ((th c + th (S c)) / 2) = ex c.
Proof. intros P th ex c HP H1 H2 H3. unfold rho_interpolated. apply exner_of_rho; [exact HP|lra|exact H3]. Qed.

Example exner_column_example : let z := fun k => match k with 0%nat => 0 | 1%nat => 1 | 2%nat => 3 | _ => 4 end in
  increasing 3 z /\ solves_exner default_params 1004.5 3 z false (fun i => 100 * (1 + INR i)) 1 (fun _ => 0)
    (fun c => match c with 0%nat => 1 - 1/200 | 1%nat => 1 - 1/200 - 3/400 | _ => 1 - 1/200 - 3/400 - 3/600 end).
Proof.
  intros z. assert (Hz : increasing 3 z) by (intros c Hc; destruct c as [|[|[|c]]]; cbn; [lra..|lia]). split; [exact Hz|].
  apply exner_column_hydrostatic; [lia|exact Hz| |].
  - intros i Hi. pose proof (pos_INR i). lra.
  - split; [reflexivity|]. split.
    + intros i Hi. destruct i as [|[|[|i]]]; [lia| | |lia]; unfold z_mid, z; cbn; lra.
    + unfold z_mid, z. cbn. lra.
Qed.

(** ** C105.  Any elements and meshes: the equation solved is hydrostatic balance, and the density found balances the
    forces of the discrete compressible equations *)
(** a vertical test function: no flow through vertical facets or lateral boundaries, continuous through horizontal facets *)
Definition vertical_test (vertical : nat -> bool) (side_of : nat -> side) (w : velocity_field) : Prop :=
  (forall f, vertical f = true -> u_np w f = 0 /\ u_nm w f = 0) /\ (forall f, vertical f = false -> u_np w f = - u_nm w f) /\
  (forall b, side_of b = Lateral -> u_nb w b = 0).
(** The exact hydrostatic pressure, c_p theta_v grad(Pi) = - g k with Pi = exner_boundary on the chosen boundary, solves the
    problem with zero velocity. *)
Theorem exner_balance_consistent : forall G d kvec vertical side_of P g top theta0 mr_t exb Pi v dv dexner,
  let th := moist_theta theta0 mr_t in
  at_rest v -> (forall k i, cp P * (sv theta0 k / (1 + match mr_t with None => 0 | Some m => sv m k end)) * sg Pi k i = - g * kvec k i) ->
  (forall b, side_of b = bmeasure top -> sb Pi b = exb b) ->
  (forall f, vertical f = false -> sp th f = sm th f /\ sp Pi f = sm Pi f) ->
  vertical_test vertical side_of dv -> no_flow G side_of (bstring top) dv -> divergence_theorem G d (product th Pi) dv ->
  exner_lhs G d P th v Pi dv dexner = exner_rhs G d kvec side_of P g top th exb dv.
Proof.
  intros G d kvec vertical side_of P g top theta0 mr_t exb Pi v dv dexner th Hv Hbal' Hexb Hc (T1 & T2 & T3) Hn Hd.
  assert (Hbal : forall k i, cp P * sv th k * sg Pi k i = - g * kvec k i).
  { intros k i. rewrite <- Hbal'. unfold th. destruct mr_t; cbn [moist_theta quotient1 sv]; [reflexivity|]. unfold Rdiv; rewrite Rplus_0_r, Rinv_1, Rmult_1_r; reflexivity. }
  clear Hbal'.
  unfold exner_lhs, exner_rhs. unfold divergence_theorem, product in Hd. cbn [sv sg sp sm sb] in Hd.
  assert (S0 : dS_ G (fun f => sp th f * sp Pi f * u_np dv f + sm th f * sm Pi f * u_nm dv f) = 0).
  { unfold dS_. apply rsum_0. intros f _. destruct (vertical f) eqn:E; [destruct (T1 f E) as [-> ->]; ring|].
    destruct (Hc f E) as [-> ->]. rewrite (T2 f E). ring. }
  assert (B0 : ds_ G (fun b => sb th b * sb Pi b * u_nb dv b) = ds_part G side_of (bmeasure top) (fun b => u_nb dv b * sb th b * exb b)).
  { unfold ds_part, ds_. apply rsum_ext. intros b Hb. f_equal. destruct (side_eqb (side_of b) (bmeasure top)) eqn:E.
    - rewrite Hexb; [ring|]. destruct (side_of b), top; cbn in *; congruence.
    - assert (Z : u_nb dv b = 0); [|rewrite Z; ring]. destruct (side_of b) eqn:Es.
      + destruct top; cbn in E; [|discriminate]. apply Hn; [exact Hb|]. rewrite Es. reflexivity.
      + destruct top; cbn in E; [discriminate|]. apply Hn; [exact Hb|]. rewrite Es. reflexivity.
      + apply T3. exact Es. }
  rewrite S0, B0, Rplus_0_l in Hd.
  assert (E1 : dx G (fun k => cp P * w_dot d v dv k - cp P * div_prod d th dv k * sv Pi k)
             = - cp P * dx G (fun k => sv th k * sv Pi k * v_div d (u_at dv k) + vdot d (v_val (u_at dv k)) (fun i => sv th k * sg Pi k i + sv Pi k * sg th k i))
               - g * dx G (fun k => vdot d (v_val (u_at dv k)) (kvec k))).
  { replace (- g * dx G (fun k => vdot d (v_val (u_at dv k)) (kvec k))) with (- g * dx G (fun k => vdot d (v_val (u_at dv k)) (kvec k))) by reflexivity.
    unfold Rminus at 2. rewrite Ropp_mult_distr_l. rewrite <- !dx_scale, <- dx_plus. apply dx_ext. intros k.
    assert (Z : w_dot d v dv k = 0). { unfold w_dot, vdot. apply rsum_0. intros i _. rewrite (proj1 (Hv k i 0%nat)). ring. } rewrite Z.
    assert (V : vdot d (v_val (u_at dv k)) (fun i => sv th k * sg Pi k i + sv Pi k * sg th k i)
              = sv th k * vdot d (v_val (u_at dv k)) (sg Pi k) + sv Pi k * vdot d (v_val (u_at dv k)) (sg th k)).
    { unfold vdot. rewrite <- !rsum_scal, <- rsum_add. apply rsum_ext. intros. ring. }
    assert (K : cp P * sv th k * vdot d (v_val (u_at dv k)) (sg Pi k) = - g * vdot d (v_val (u_at dv k)) (kvec k)).
    { unfold vdot. rewrite <- !rsum_scal. apply rsum_ext. intros i _. replace (cp P * sv th k * (v_val (u_at dv k) i * sg Pi k i)) with (v_val (u_at dv k) i * (cp P * sv th k * sg Pi k i)) by ring.
      rewrite Hbal. ring. }
    rewrite V. unfold div_prod. lra. }
  rewrite E1, Hd.
  assert (E2 : dx G (fun k => sv dexner k * div_prod d th v k) = 0).
  { apply dx_0. intros k. unfold div_prod. rewrite (v_div_zero d _ (Hv k)). assert (Z : vdot d (v_val (u_at v k)) (sg th k) = 0); [|rewrite Z; ring].
    unfold vdot. apply rsum_0. intros i _. rewrite (proj1 (Hv k i 0%nat)). ring. }
  rewrite E2. assert (E3 : ds_part G side_of (bmeasure top) (fun b => cp P * u_nb dv b * sb th b * exb b) = cp P * ds_part G side_of (bmeasure top) (fun b => u_nb dv b * sb th b * exb b)).
  { unfold ds_part, ds_. rewrite <- rsum_scal. apply rsum_ext. intros b _. destruct (side_eqb _ _); ring. }
  rewrite E3. ring.
Qed.

(** a state of rest whose pressure gradient and gravity balance for a test function is steady for it *)
Lemma balanced_forces_steady : forall G d circ kvec vertical P opt lm g ts Om sponge r X T,
  circ_vanishes circ -> compressible_euler G d circ kvec vertical P opt lm g ts [] Om sponge = Ok r ->
  at_rest (f_u X) -> euler_pressure G d vertical P ts X T + euler_gravity G d kvec g X T = 0 -> spatial r X T = 0.
Proof.
  intros G d circ kvec vertical P opt lm g ts Om sponge r X T C Hr HX PG. unfold compressible_euler in Hr.
  destruct (u_transport _ _ _ _ _) as [ru|] eqn:E; [|discriminate].
  destruct (u_transport_at_rest _ _ _ _ _ _ C E) as [Hu _].
  assert (CT : dx G (fun k => continuity d (sv (f_D T) k) (at_ (f_D X) k) (u_at (f_u X) k)) = 0).
  { apply dx_0. intros k. unfold continuity. rewrite (v_div_zero d _ (HX k)). rewrite (rsum_0 d); [ring|]. intros i _. rewrite (proj1 (HX k i 0%nat)). ring. }
  assert (AT : dx G (fun k => advection d (sv (f_b T) k) (at_ (f_b X) k) (u_at (f_u X) k)) = 0).
  { apply dx_0. intros k. unfold advection. rewrite (rsum_0 d); [ring|]. intros i _. rewrite (proj1 (HX k i 0%nat)). ring. }
  assert (MT : euler_moist G d P ts X T = 0).
  { unfold euler_moist. apply dx_0. intros k. rewrite (v_div_zero d _ (HX k)). ring. }
  assert (OT : forall om, euler_coriolis G d om X T = 0).
  { intros om. unfold euler_coriolis. apply dx_0. intros k. unfold vdot. apply rsum_0. intros i _. unfold cross_omega, cross3.
    rewrite !(proj1 (HX k _ 0%nat)). destruct i as [|[|i]]; ring. }
  assert (ST : forall mu, euler_sponge G d kvec mu X T = 0).
  { intros mu. unfold euler_sponge. apply dx_0. intros k. assert (Z : vdot d (v_val (u_at (f_u X) k)) (kvec k) = 0).
    { unfold vdot. apply rsum_0. intros i _. rewrite (proj1 (HX k i 0%nat)). ring. } rewrite Z. ring. }
  set (base := ([mass_term_u G d; mass_term_s G "rho" f_D; mass_term_s G "theta" f_b] ++ ru ++ [continuity_term G d "rho" f_D lm] ++
                [advection_term G d "theta" f_b lm] ++ [] ++
                [euler_term ["pressure_gradient"%string] "u" (euler_pressure G d vertical P ts)] ++ [euler_term ["gravity"%string] "u" (euler_gravity G d kvec g)] ++
                (match ts with [] => [] | _ => [euler_term [] "theta" (euler_moist G d P ts)] end) ++
                opt_list (fun Om => euler_term ["coriolis"%string] "u" (euler_coriolis G d Om)) Om)%list) in *.
  assert (Z : spatial base X T = 0).
  { unfold base. rewrite !spatial_app, Hu by exact HX.
    assert (M : spatial (match ts with [] => [] | _ => [euler_term [] "theta" (euler_moist G d P ts)] end) X T = 0).
    { destruct ts; [reflexivity|]. cbn. rewrite MT. ring. }
    assert (O : spatial (opt_list (fun Om => euler_term ["coriolis"%string] "u" (euler_coriolis G d Om)) Om) X T = 0).
    { destruct Om; [|reflexivity]. cbn. rewrite OT. ring. }
    rewrite M, O. cbn. rewrite CT, AT. lra. }
  destruct sponge as [[o mu]|].
  - destruct (sponge_check o); [|discriminate].
    apply (f_equal (fun q => match q with Ok a => a | Err _ => [] end)) in Hr. cbv beta iota in Hr. subst r.
    rewrite spatial_app, Z. cbn. rewrite ST. ring.
  - apply (f_equal (fun q => match q with Ok a => a | Err _ => [] end)) in Hr. cbv beta iota in Hr. subst r. exact Z.
Qed.
(** With solve_for_rho: the atmosphere at rest with the density found does not start to move vertically.  Every vertical
    test function without flow through the bottom and top is balanced, in the discrete compressible equations with the
    same potential temperature and moisture, whatever the elements. *)
(** the moisture given to the initialisation is that of the equations: all mixing ratios together, or none *)
Definition same_moisture (mr_t : option sfield) (ts : list ctracer) (X : fields) : Prop :=
  match mr_t with None => theta_v ts X = f_b X | Some m => m = total_mr tr_mixing ts X end.
Lemma same_moisture_theta mr_t ts X : same_moisture mr_t ts X -> theta_v ts X = moist_theta (f_b X) mr_t.
Proof. unfold same_moisture. destruct mr_t; cbn [moist_theta]; [intros ->; reflexivity|intros H; exact H]. Qed.
Theorem solved_density_balances : forall G d circ kvec vertical side_of (Vv : velocity_field -> Prop) (VDG : sfield -> Prop)
    P opt lm g ts Om sponge r top theta0 mr_t exb v rho X T,
  circ_vanishes circ -> compressible_euler G d circ kvec vertical P opt lm g ts [] Om sponge = Ok r ->
  rho_solution G d kvec side_of Vv VDG P g top theta0 mr_t exb v rho -> at_rest v -> VDG (constant 0) ->
  f_D X = rho -> f_b X = theta0 -> same_moisture mr_t ts X -> at_rest (f_u X) ->
  Vv (f_u T) -> vertical_test vertical side_of (f_u T) -> (forall b, (b < nbp G)%nat -> u_nb (f_u T) b = 0) ->
  spatial r X T = 0.
Proof.
  intros G d circ kvec vertical side_of Vv VDG P opt lm g ts Om sponge r top theta0 mr_t exb v rho X T C Hr (_ & _ & _ & HS) Hv H0 HD Hb Hth HX HT (T1 & _ & _) HB.
  apply same_moisture_theta in Hth. rewrite Hb in Hth.
  apply (balanced_forces_steady _ _ _ _ _ _ _ _ _ _ _ _ _ _ _ C Hr HX).
  specialize (HS (f_u T) (constant 0) HT H0 ltac:(intros b Hb' _; apply HB; exact Hb')). unfold rho_residual in HS.
  unfold euler_pressure, euler_gravity. rewrite Hth.
  assert (S0 : dS_v G vertical (fun f => jump_ (moist_theta theta0 mr_t) (f_u T) f * avg_ (exner_field P X) f) = 0).
  { unfold dS_v, dS_. apply rsum_0. intros f _. destruct (vertical f) eqn:E; [|ring]. unfold jump_. destruct (T1 f E) as [-> ->]. ring. }
  rewrite S0.
  assert (B0 : ds_part G side_of (bmeasure top) (fun b => cp P * u_nb (f_u T) b * sb (moist_theta theta0 mr_t) b * exb b) = 0).
  { unfold ds_part, ds_. apply rsum_0. intros b Hb'. rewrite HB by exact Hb'. destruct (side_eqb _ _); ring. }
  rewrite B0 in HS.
  assert (Z0 : dx G (fun k => sv (constant 0) k * div_prod d theta0 v k) = 0) by (apply dx_0; intros; cbn; ring).
  rewrite Z0 in HS.
  assert (E1 : dx G (fun k => cp P * w_dot d v (f_u T) k - cp P * div_prod d (moist_theta theta0 mr_t) (f_u T) k * sv (exner_of_fields P rho theta0) k)
             = - cp P * dx G (fun k => (sv (moist_theta theta0 mr_t) k * v_div d (u_at (f_u T) k) + vdot d (v_val (u_at (f_u T) k)) (sg (moist_theta theta0 mr_t) k)) * sv (exner_field P X) k)).
  { rewrite <- dx_scale. apply dx_ext. intros k. unfold exner_of_fields, exner_field. cbn [sv f_D f_b]. rewrite HD, Hb.
    assert (Z : w_dot d v (f_u T) k = 0). { unfold w_dot, vdot. apply rsum_0. intros i _. rewrite (proj1 (Hv k i 0%nat)). ring. }
    rewrite Z. unfold div_prod. ring. }
  rewrite E1 in HS.
  assert (E2 : dx G (fun k => vdot d (v_val (u_at (f_u T) k)) (kvec k)) = dx G (fun k => vdot d (kvec k) (v_val (u_at (f_u T) k)))).
  { apply dx_ext. intros k. unfold vdot. apply rsum_ext. intros. ring. }
  rewrite E2 in HS. lra.
Qed.
Print Assumptions solved_density_balances.

(** In the column, the velocity found with the density vanishes (theta0 is dry, the moisture may be anything) ... *)
Definition solves_rho (P : cparams) (g : R) (N : nat) (z : nat -> R) (top : bool) (th : nat -> R) (mr_t : option sfield) (exb : R) (v rho : nat -> R) : Prop :=
  rho_solution (column_geometry N z) 1 upward column_side (column_Vv N z) (column_VDG N) P g top (p1 N z th) mr_t (fun _ => exb)
               (vertical_velocity N z v) (dg0_column N rho).
Lemma dx_ext_in G f h : (forall k, (k < ncp G)%nat -> f k = h k) -> dx G f = dx G h.
Proof. intros H. unfold dx. apply rsum_ext. intros k Hk. rewrite H by exact Hk. reflexivity. Qed.
Lemma column_no_flow N z top a : no_flow (column_geometry N z) column_side (bstring top) (vertical_velocity N z a) <-> a (if top then 0%nat else N) = 0.
Proof.
  unfold no_flow, column_geometry, vertical_velocity. cbn [nbp u_nb]. split.
  - intros H. destruct top; [specialize (H 0%nat ltac:(lia) eq_refl); cbn in H; lra|exact (H 1%nat ltac:(lia) eq_refl)].
  - intros H b Hb Hs. destruct b as [|[|b]]; [| |lia]; destruct top; cbn in Hs; try discriminate; cbv iota; lra.
Qed.
Lemma p1_val_zero N (a : nat -> R) : (forall i, (i <= N)%nat -> a i = 0) -> forall k, (k < 3 * N)%nat -> p1_val a k = 0.
Proof.
  intros H k Hk. assert (Hd : (k / 3 < N)%nat) by (apply Nat.div_lt_upper_bound; lia).
  unfold p1_val. rewrite !H by lia. destruct (k mod 3)%nat as [|[|m]]; [reflexivity| |reflexivity]. field.
Qed.
Lemma p1_slope_zero N z (a : nat -> R) : (forall i, (i <= N)%nat -> a i = 0) -> forall k, (k < 3 * N)%nat -> p1_slope z a k = 0.
Proof.
  intros H k Hk. assert (Hd : (k / 3 < N)%nat) by (apply Nat.div_lt_upper_bound; lia). unfold p1_slope. rewrite !H by lia. unfold Rdiv. ring.
Qed.
Lemma column_velocity_zero P g N z top th mr_t exb v rho : (0 < N)%nat -> increasing N z -> (forall i, (i <= N)%nat -> th i <> 0) ->
  solves_rho P g N z top th mr_t exb v rho -> forall i, (i <= N)%nat -> v i = 0.
Proof.
  intros HN Hz Hth (_ & _ & Hv & HS). apply column_no_flow in Hv. pose proof (increasing_thickness N z Hz) as Hh.
  assert (F : forall i, (i <= N)%nat -> th i * v i = th 0%nat * v 0%nat).
  { apply no_divergence_no_flow. intros x.
    specialize (HS (vertical_velocity N z (fun _ => 0)) (dg0_column N x) (ex_intro _ (fun _ => 0) eq_refl) (ex_intro _ x eq_refl)
                  (proj2 (column_no_flow N z top (fun _ => 0)) eq_refl)).
    unfold rho_residual in HS. rewrite <- (int_dg0_div N z x th v Hh).
    rewrite (dx_ext_in _ (fun k => cp P * _ - _) (fun _ => 0)) in HS.
    2:{ intros k Hk. unfold w_dot, div_prod, vdot, v_div. cbn [rsum vertical_velocity u_at v_val v_grad]. 
        rewrite (p1_val_zero N (fun _ => 0) (fun _ _ => eq_refl) k Hk), (p1_slope_zero N z (fun _ => 0) (fun _ _ => eq_refl) k Hk). ring. }
    rewrite (dx_ext_in _ (fun k => vdot 1 _ _) (fun _ => 0)) in HS.
    2:{ intros k Hk. unfold vdot. cbn [rsum vertical_velocity u_at v_val]. rewrite (p1_val_zero N (fun _ => 0) (fun _ _ => eq_refl) k Hk). ring. }
    assert (Z : dx (column_geometry N z) (fun _ => 0) = 0) by (unfold dx; apply rsum_0; intros; ring). rewrite Z in HS.
    assert (B : ds_part (column_geometry N z) column_side (bmeasure top) (fun b => cp P * u_nb (vertical_velocity N z (fun _ => 0)) b * sb (moist_theta (p1 N z th) mr_t) b * exb) = 0).
    { unfold ds_part, ds_. apply rsum_0. intros b _. destruct (side_eqb _ _); [|ring]. cbn [vertical_velocity u_nb]. destruct b; ring. }
    rewrite B in HS. rewrite <- Rmult_0_r with (r := 1) at 1. rewrite <- (Rplus_0_l (dx _ _)). rewrite (dx_ext _ _ (fun k => sv (dg0_column N x) k * div_prod 1 (p1 N z th) (vertical_velocity N z v) k)) by (intros; cbn [dg0_column sv]; ring). lra. }
  assert (Z : th 0%nat * v 0%nat = 0). { destruct top; [rewrite Hv; ring|]. rewrite <- (F N) by lia. rewrite Hv. ring. }
  intros i Hi. specialize (F i Hi). rewrite Z in F. destruct (Rmult_integral _ _ F) as [E|E]; [|exact E]. exfalso. exact (Hth i Hi E).
Qed.
(** ... and with the density found the column at rest is a steady state of the discrete compressible equations tested with
    vertical velocities. *)
Theorem solved_density_column_steady : forall P g N z top th mr_t exb v rho circ opt lm ts Om sponge r X T a,
  (0 < N)%nat -> increasing N z -> (forall i, (i <= N)%nat -> th i <> 0) ->
  solves_rho P g N z top th mr_t exb v rho ->
  circ_vanishes circ -> compressible_euler (column_geometry N z) 1 circ upward (fun _ => false) P opt lm g ts [] Om sponge = Ok r ->
  f_D X = dg0_column N rho -> f_b X = p1 N z th -> same_moisture mr_t ts X -> at_rest (f_u X) ->
  f_u T = vertical_velocity N z a -> a 0%nat = 0 -> a N = 0 ->
  (forall i, (i <= N)%nat -> v i = 0) /\ spatial r X T = 0.
Proof.
  intros P g N z top th mr_t exb v rho circ opt lm ts Om sponge r X T a HN Hz Hth HS C Hr HD Hb Htv HX HT A0 AN.
  pose proof (column_velocity_zero _ _ _ _ _ _ _ _ _ _ HN Hz Hth HS) as V. split; [exact V|].
  assert (HS' : solves_rho P g N z top th mr_t exb (fun _ => 0) rho).
  { destruct HS as (_ & _ & _ & HS). split; [exists (fun _ => 0); reflexivity|]. split; [exists rho; reflexivity|]. split; [apply column_no_flow; reflexivity|].
    intros dv dex H1 H2 H3. refine (eq_trans _ (HS dv dex H1 H2 H3)). unfold rho_residual. f_equal. f_equal. f_equal; apply dx_ext_in; intros k Hk.
    - unfold w_dot, vdot. cbn [rsum vertical_velocity u_at v_val].
      rewrite (p1_val_zero N (fun _ => 0) (fun _ _ => eq_refl) k Hk), (p1_val_zero N v V k Hk). reflexivity.
    - unfold div_prod, vdot, v_div. cbn [rsum vertical_velocity u_at v_val v_grad].
      rewrite (p1_val_zero N (fun _ => 0) (fun _ _ => eq_refl) k Hk), (p1_val_zero N v V k Hk), (p1_slope_zero N z (fun _ => 0) (fun _ _ => eq_refl) k Hk), (p1_slope_zero N z v V k Hk). reflexivity. }
  apply (solved_density_balances (column_geometry N z) 1 circ upward (fun _ => false) column_side (column_Vv N z) (column_VDG N) P opt lm g ts Om sponge r top
           (p1 N z th) mr_t (fun _ => exb) (vertical_velocity N z (fun _ => 0)) (dg0_column N rho)); try assumption.
  - intros k i j. cbn [vertical_velocity u_at v_val v_grad]. unfold p1_val, p1_slope. split; [destruct (k mod 3)%nat as [|[|m]]; [reflexivity|field|reflexivity]|]. unfold Rdiv. ring.
  - exists (fun _ => 0). unfold constant, dg0_column. f_equal. apply functional_extensionality. intros [|b]; reflexivity.
  - rewrite HT. exists a. reflexivity.
  - rewrite HT. split; [discriminate|]. split; [intros f _; cbn; ring|]. intros [|b]; discriminate.
  - rewrite HT. intros [|[|b]] Hb'; cbn; [rewrite A0; ring|exact AN|cbn in Hb'; lia].
Qed.
(** Such a density: for uniform potential temperature it is the one interpolated from the Exner pressure. *)
Theorem isentropic_density_solves : forall P g N z top th0 exb v ex,
  (0 < N)%nat -> increasing N z -> admissible P -> 0 < th0 -> (forall c, (c < N)%nat -> 0 < ex c) ->
  solves_exner P g N z top (fun _ => th0) exb v ex ->
  solves_rho P g N z top (fun _ => th0) None exb v (rho_interpolated P (fun _ => th0) ex).
Proof.
  intros P g N z top th0 exb v ex HN Hz HP Hth Hex (_ & _ & Hv & HS). split; [exists v; reflexivity|]. split; [eexists; reflexivity|]. split; [exact Hv|].
  intros dv dex H1 H2 H3. specialize (HS dv dex H1 H2 H3). unfold rho_residual. unfold exner_lhs, exner_rhs in HS.
  rewrite (dx_ext_in _ (fun k => cp P * w_dot 1 (vertical_velocity N z v) dv k - cp P * div_prod 1 (moist_theta (p1 N z (fun _ => th0)) None) dv k * sv (exner_of_fields P _ _) k)
             (fun k => cp P * w_dot 1 (vertical_velocity N z v) dv k - cp P * div_prod 1 (moist_theta (p1 N z (fun _ => th0)) None) dv k * sv (dg0_column N ex) k)).
  2:{ intros k Hk. f_equal. f_equal. unfold exner_of_fields, exner_field. cbn [sv f_D f_b dg0_column p1].
      assert (Hd : (k / 3 < N)%nat) by (apply Nat.div_lt_upper_bound; [lia|exact Hk]).
      assert (E : p1_val (fun _ => th0) k = (th0 + th0) / 2) by (unfold p1_val; destruct (k mod 3)%nat as [|[|m]]; field).
      rewrite E. apply (interpolated_density_exner P (fun _ => th0) ex (k / 3) HP Hth Hth). apply Hex. exact Hd. }
  cbn [moist_theta] in *. lra.
Qed.
Example solved_column_example : let z := fun k => INR k in
  exists v rho, solves_rho default_params (1004.5 * 30) 4 z true (fun _ => 300) None (1/2) v rho.
Proof.
  intros z. assert (Hz : increasing 4 z) by (intros c _; unfold z; rewrite S_INR; lra).
  destruct (exner_column_exists_unique default_params (1004.5 * 30) 4 z true (fun _ => 300) (1/2) ltac:(lia) Hz) as [(v & ex & H) _]; [cbn; lra|intros; lra|].
  exists v. eexists. apply (isentropic_density_solves default_params (1004.5 * 30) 4 z true 300 (1/2) v ex); [lia|exact Hz|exact default_admissible|lra| |exact H].
  intros c Hc. rewrite (exner_column_isentropic_exact default_params (1004.5 * 30) 4 z true 300 (1/2) v ex ltac:(lia) Hz ltac:(cbn; lra) ltac:(lra) H c Hc).
  unfold z_mid, z. cbn [cp default_params]. rewrite (S_INR c). assert (L : INR c + 1 <= INR 4) by (rewrite <- S_INR; apply le_INR; lia).
  generalize dependent (INR c). intros x L. replace (INR (if true then 4%nat else 0%nat)) with 4 by (cbn; ring). replace (INR 4) with 4 in L by (cbn; ring).
  replace (1004.5 * 30 / (1004.5 * 300)) with (1/10) by (field; lra). lra.
Qed.
(** Without solve_for_rho the density is only balanced up to the discretisation error when theta varies: layers of thickness 1,
    theta = 1, 2, 2 at the levels. *)
Theorem interpolated_density_unbalanced_refuted : exists P N z th exb v ex,
  admissible P /\ (0 < N)%nat /\ increasing N z /\ (forall i, 0 < th i) /\ (forall c, (c < N)%nat -> 0 < ex c) /\
  solves_exner P 1 N z false th exb v ex /\ ~ solves_rho P 1 N z false th None exb v (rho_interpolated P th ex).
Proof.
  set (P := {| cp := 1; R_d := 1; kappa := 1/2; p_0 := 1; cv := 1/2; c_pl := 1; c_pv := 1; c_vv := 1; R_v := 1; L_v0 := 1; T_0 := 1; w_sat2 := 1; w_sat3 := 1; w_sat4 := 1 |}).
  set (z := fun k => INR k). set (th := fun i => match i with 0%nat => 1 | _ => 2 end). set (ex := fun c => match c with 0%nat => 3/2 | _ => 1 end).
  exists P, 2%nat, z, th, 2, (fun _ => 0), ex.
  assert (HP : admissible P) by (constructor; cbn; lra).
  assert (Hz : increasing 2 z) by (intros c _; unfold z; rewrite S_INR; lra).
  assert (Hth : forall i, 0 < th i) by (intros [|i]; cbn; lra).
  assert (Hex : forall c, 0 < ex c) by (intros [|c]; cbn; lra).
  split; [exact HP|]. split; [lia|]. split; [exact Hz|]. split; [exact Hth|]. split; [intros; apply Hex|]. split.
  - apply exner_column_hydrostatic; [lia|exact Hz|intros i _; specialize (Hth i); lra|]. split; [reflexivity|]. split.
    + intros [|[|i]] Hi; [lia| |lia]. unfold z_mid, z. cbn. lra.
    + unfold z_mid, z. cbn. lra.
  - intros (_ & _ & _ & HS).
    specialize (HS (vertical_velocity 2 z (hat_at 1)) (dg0_column 2 (fun _ => 0)) (ex_intro _ _ eq_refl) (ex_intro _ _ eq_refl) (proj2 (column_no_flow 2 z false (hat_at 1)) eq_refl)).
    unfold rho_residual in HS. rewrite !column_dx in HS.
    assert (E : forall c t, 0 < t -> exner_pressure P (rho_interpolated P th ex c) t = ex c * t / ((th c + th (S c)) / 2)).
    { intros c t Ht. unfold exner_pressure, rho_interpolated, rho_of. cbn [P kappa R_d p_0]. pose proof (Hth c). pose proof (Hth (S c)). pose proof (Hex c).
      replace (1 / 2 / (1 - 1 / 2)) with 1 by field. replace (1 / (1 / 2) - 1) with 1 by field. rewrite (Rpower_1 (ex c)) by assumption.
      rewrite Rpower_1; [field; lra|]. repeat apply Rmult_lt_0_compat; try lra. apply Rinv_0_lt_compat. lra. }
    cbn [moist_theta] in HS. unfold exner_of_fields, exner_field in HS. cbn [sv f_D f_b dg0_column p1 rsum] in HS.
    unfold w_dot, div_prod, vdot, v_div, ds_part, ds_ in HS. cbn [rsum vertical_velocity u_at v_val v_grad p1 sv sg column_geometry nbp bw column_side bmeasure side_eqb u_nb] in HS.
    rewrite !div3_0, !(div3 0 1), !(div3 0 2), !(div3 1 1), !(div3 1 2) in HS by lia.
    assert (T : forall k, 0 < p1_val th k) by (intros k; unfold p1_val; pose proof (Hth (k / 3)%nat); pose proof (Hth (S (k / 3))); destruct (k mod 3)%nat as [|[|m]]; lra).
    rewrite !E in HS by apply T. cbn in HS. unfold p1_val, p1_slope, hat_at, th, ex, z, thickness, upward in HS. cbn in HS. lra.
Qed.

(** ** C106.  boussinesq_hydrostatic_balance *)
(** Whatever the elements: if the auxiliary velocity found is the projected buoyancy F, pressure gradient and buoyancy of
    the Boussinesq equations balance for every vertical test function with no flow through the chosen boundary. *)
Theorem bouss_pressure_balances : forall G d kvec side_of Vv VDG top b0 F v p w,
  buoyancy_flux G d kvec side_of Vv top b0 F -> bouss_solution G d side_of Vv VDG top F v p -> VDG (constant 0) ->
  (forall k i, v_val (u_at v k) i = v_val (u_at F k) i) -> Vv w -> no_flow G side_of (if top then Top else Bottom) w ->
  dx G (fun k => - v_div d (u_at w k) * sv p k) + dx G (fun k => - sv b0 k * vdot d (v_val (u_at w k)) (kvec k)) = 0.
Proof.
  intros G d kvec side_of Vv VDG top b0 F v p w (_ & _ & HF) (_ & _ & _ & HS) H0 Hv Hw Hn. specialize (HF w Hw Hn). specialize (HS w (constant 0) Hw H0 Hn).
  rewrite (dx_ext G _ (fun k => w_dot d w F k + v_div d (u_at w k) * sv p k)) in HS.
  2:{ intros k. cbn [constant sv]. replace (w_dot d w v k) with (w_dot d w F k); [ring|]. unfold w_dot, vdot. apply rsum_ext. intros i _. rewrite Hv. reflexivity. }
  change (fun k => w_dot d w F k) with (w_dot d w F) in HF. rewrite dx_plus in HS. rewrite HF in HS. rewrite (dx_0 G (fun k => sv (constant 0) k * _)) in HS by (intros; cbn; ring).
  rewrite (dx_ext G (fun k => - v_div d (u_at w k) * sv p k) (fun k => - (v_div d (u_at w k) * sv p k))) by (intros; ring).
  rewrite (dx_ext G (fun k => - sv b0 k * _) (fun k => - (vdot d (kvec k) (v_val (u_at w k)) * sv b0 k))).
  2:{ intros k. assert (E : vdot d (v_val (u_at w k)) (kvec k) = vdot d (kvec k) (v_val (u_at w k))) by (unfold vdot; apply rsum_ext; intros; ring). rewrite E. ring. }
  rewrite !dx_opp. lra.
Qed.
Definition solves_bouss N z top (b F v p : nat -> R) : Prop :=
  buoyancy_flux (column_geometry N z) 1 upward column_side (column_Vv N z) top (p1 N z b) (vertical_velocity N z F) /\
  bouss_solution (column_geometry N z) 1 column_side (column_Vv N z) (column_VDG N) top (vertical_velocity N z F) (vertical_velocity N z v) (dg0_column N p).
(** the mean of the buoyancy around level i, weighted with the hat function of the level: the integral of the hat function times b *)
Definition buoyancy_mean (N : nat) (z b : nat -> R) (i : nat) : R :=
  (if Nat.eqb i 0 then 0 else (z i - z (i - 1)%nat) * (b (i - 1)%nat + 2 * b i) / 6) + (if Nat.eqb i N then 0 else (z (S i) - z i) * (2 * b i + b (S i)) / 6).
(** dp/dz = b at every level; p = 0 half a layer outside the boundary opposite to the chosen one *)
Definition hydrostatic_pressure N z (top : bool) (b p : nat -> R) : Prop :=
  (forall i, (0 < i < N)%nat -> p i - p (i - 1)%nat = buoyancy_mean N z b i) /\
  (if top then p 0%nat = buoyancy_mean N z b 0 else p (N - 1)%nat = - buoyancy_mean N z b N).
Lemma int_kb N z a b :
  dx (column_geometry N z) (fun k => vdot 1 (upward k) (v_val (u_at (vertical_velocity N z a) k)) * sv (p1 N z b) k)
  = rsum N (fun c => thickness z c * (2 * a c * b c + a c * b (S c) + a (S c) * b c + 2 * a (S c) * b (S c)) / 6).
Proof. rewrite column_dx. apply rsum_ext. intros c _. unfold vdot, upward. cbn [rsum vertical_velocity u_at v_val p1 sv]. points. field. Qed.
Lemma bouss_no_flow N z (top : bool) a : no_flow (column_geometry N z) column_side (if top then Top else Bottom) (vertical_velocity N z a) <-> a (if top then N else 0%nat) = 0.
Proof. pose proof (column_no_flow N z (negb top) a) as H. destruct top; exact H. Qed.
Theorem bouss_column_hydrostatic : forall N z top b F v p,
  (0 < N)%nat -> increasing N z -> solves_bouss N z top b F v p ->
  (forall i, (i <= N)%nat -> v i = F i) /\ hydrostatic_pressure N z top b p.
Proof.
  intros N z top b F v p HN Hz [(_ & HF0 & HF) (_ & _ & Hv0 & HS)]. pose proof (increasing_thickness N z Hz) as Hh.
  apply bouss_no_flow in HF0. apply bouss_no_flow in Hv0.
  assert (W : forall w x, w (if top then N else 0%nat) = 0 ->
     rsum N (fun c => thickness z c * (2 * w c * v c + w c * v (S c) + w (S c) * v c + 2 * w (S c) * v (S c)) / 6)
     + rsum N (fun c => p c * (w (S c) - w c)) + rsum N (fun c => x c * (v (S c) - v c)) = rsum N (fun c => x c * (F (S c) - F c))).
  { intros w x Hw. specialize (HS (vertical_velocity N z w) (dg0_column N x) (ex_intro _ w eq_refl) (ex_intro _ x eq_refl) (proj2 (bouss_no_flow N z top w) Hw)).
    rewrite (dx_ext _ _ (fun k => w_dot 1 (vertical_velocity N z w) (vertical_velocity N z v) k + v_div 1 (u_at (vertical_velocity N z w) k) * p (k / 3)%nat + v_div 1 (u_at (vertical_velocity N z v) k) * x (k / 3)%nat)) in HS
      by (intros; cbn [dg0_column sv]; ring).
    rewrite !dx_plus, int_dot, !int_div in HS by exact Hh.
    rewrite (dx_ext _ _ (fun k => v_div 1 (u_at (vertical_velocity N z F) k) * x (k / 3)%nat)), int_div in HS by (try exact Hh; intros; cbn [dg0_column sv]; ring). exact HS. }
  assert (V : forall i, (i <= N)%nat -> v i = F i).
  { assert (D : forall i, (i <= N)%nat -> v i - F i = v 0%nat - F 0%nat).
    { intros i Hi. assert (E : forall x, rsum N (fun c => x c * (1 * (v (S c) - F (S c)) - 1 * (v c - F c))) = 0).
      { intros x. pose proof (W (fun _ => 0) x) as E. specialize (E ltac:(destruct top; reflexivity)).
        rewrite (rsum_0 N (fun c => thickness z c * _ / 6)) in E by (intros; field). rewrite (rsum_0 N (fun c => p c * _)) in E by (intros; ring).
        rewrite (rsum_ext N _ (fun c => x c * (v (S c) - v c) + -(1) * (x c * (F (S c) - F c)))) by (intros; ring). rewrite rsum_add, rsum_scal. lra. }
      pose proof (no_divergence_no_flow N (fun _ => 1) (fun i => v i - F i) E i Hi) as E'. cbv beta in E'. lra. }
    intros i Hi. specialize (D i Hi) as Di. destruct top; [specialize (D N ltac:(lia))|]; lra. }
  split; [exact V|].
  assert (W' : forall w, w (if top then N else 0%nat) = 0 ->
     rsum N (fun c => thickness z c * (2 * w c * b c + w c * b (S c) + w (S c) * b c + 2 * w (S c) * b (S c)) / 6) + rsum N (fun c => p c * (w (S c) - w c)) = 0).
  { intros w Hw. specialize (HF (vertical_velocity N z w) (ex_intro _ w eq_refl) (proj2 (bouss_no_flow N z top w) Hw)). 
    change (fun k => w_dot 1 (vertical_velocity N z w) (vertical_velocity N z F) k) with (w_dot 1 (vertical_velocity N z w) (vertical_velocity N z F)) in HF.
    rewrite int_dot, int_kb in HF. rewrite <- HF. pose proof (W w (fun _ => 0) Hw) as E. cbv beta in E.
    rewrite (rsum_0 N (fun c => 0 * (v (S c) - v c))), (rsum_0 N (fun c => 0 * (F (S c) - F c))) in E by (intros; ring).
    rewrite (rsum_ext N _ (fun c => thickness z c * (2 * w c * v c + w c * v (S c) + w (S c) * v c + 2 * w (S c) * v (S c)) / 6)) by (intros c Hc; rewrite !V by lia; reflexivity). lra. }
  split.
  - intros i Hi. pose proof (W' (hat_at i)) as E. specialize (E ltac:(destruct top; apply hat_other; lia)).
    destruct i as [|i]; [lia|]. unfold buoyancy_mean. replace (S i - 1)%nat with i by lia. destruct (Nat.eqb_spec (S i) 0); [lia|]. destruct (Nat.eqb_spec (S i) N); [lia|].
    rewrite (rsum_two N (fun c => thickness z c * _ / 6) i) in E by (try lia; intros k Hk H1 H2; rewrite !hat_other by lia; field).
    rewrite (rsum_two N (fun c => p c * _) i) in E by (try lia; intros k Hk H1 H2; rewrite !hat_other by lia; ring).
    rewrite !hat_same, !(hat_other (S i) i), !(hat_other (S i) (S (S i))) in E by lia. unfold thickness in E. lra.
  - destruct top.
    + pose proof (W' (hat_at 0)) as E. specialize (E ltac:(apply hat_other; lia)).
      rewrite (rsum_one N (fun c => thickness z c * _ / 6) 0) in E by (try lia; intros k Hk H1; rewrite !hat_other by lia; field).
      rewrite (rsum_one N (fun c => p c * _) 0) in E by (try lia; intros k Hk H1; rewrite !hat_other by lia; ring).
      rewrite !hat_same, !(hat_other 0 1) in E by lia. unfold buoyancy_mean. destruct (Nat.eqb_spec 0 N); [lia|]. cbn [Nat.eqb]. unfold thickness in E. lra.
    + pose proof (W' (hat_at N)) as E. specialize (E ltac:(apply hat_other; lia)).
      rewrite (rsum_one N (fun c => thickness z c * _ / 6) (N - 1)) in E by (try lia; intros k Hk H1; rewrite !hat_other by lia; field).
      rewrite (rsum_one N (fun c => p c * _) (N - 1)) in E by (try lia; intros k Hk H1; rewrite !hat_other by lia; ring).
      replace (S (N - 1)) with N in E by lia. rewrite !hat_same, !(hat_other N (N - 1)) in E by lia. unfold buoyancy_mean. rewrite Nat.eqb_refl. destruct (Nat.eqb_spec N 0); [lia|].
      unfold thickness in E. replace (S (N - 1)) with N in E by lia. lra.
Qed.
Example bouss_example : solves_bouss 2 INR false (fun i => match i with 0%nat => 1 | _ => 0 end)
  (fun i => match i with 0%nat => 0 | 1%nat => 2/7 | _ => -1/7 end) (fun i => match i with 0%nat => 0 | 1%nat => 2/7 | _ => -1/7 end)
  (fun c => match c with 0%nat => -1/6 | _ => 0 end).
Proof.
  assert (Hz : increasing 2 INR) by (intros c _; rewrite S_INR; lra). pose proof (increasing_thickness 2 INR Hz) as Hh.
  split.
  - split; [eexists; reflexivity|]. split; [apply (bouss_no_flow 2 INR false); reflexivity|]. intros w [a ->] Hn. apply (proj1 (bouss_no_flow 2 INR false a)) in Hn. cbv iota in Hn.
    match goal with |- dx ?G (fun k => w_dot 1 ?v ?f k) = _ => change (fun k => w_dot 1 v f k) with (w_dot 1 v f) end.
    rewrite int_dot, int_kb. unfold thickness. cbn [rsum]. rewrite !S_INR, Hn. cbn [INR]. field.
  - split; [eexists; reflexivity|]. split; [eexists; reflexivity|]. split; [apply (bouss_no_flow 2 INR false); reflexivity|].
    intros w phi [a ->] [x ->] Hn. apply (proj1 (bouss_no_flow 2 INR false a)) in Hn. cbv iota in Hn.
    rewrite !column_dx. unfold w_dot, vdot, v_div, thickness. cbn [rsum vertical_velocity u_at v_val v_grad dg0_column sv].
    unfold p1_val, p1_slope, thickness. rewrite !div3_0, !mod3_0, !(div3 0 1), !(div3 0 2), !(div3 1 1), !(div3 1 2), !(mod3 0 1), !(mod3 0 2), !(mod3 1 1), !(mod3 1 2) by lia.
    rewrite !S_INR, Hn. cbn [INR]. field.
Qed.
