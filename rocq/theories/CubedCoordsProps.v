(** The cubed sphere: where its vertices are. *)
From Coq Require Import Reals ZArith Lra Lia Psatz.
From Verif Require Import Base Meshes MeshesProps IcoCoordsProps CubedProps.
Open Scope R_scope.

(** ** Specification: equiangular gnomonic coordinates.  The tangents of the angles that divide
    a quarter circle (from -pi/4 to pi/4) in N equal parts, and the radial projections of the
    points they give on the faces of a cube *)
Definition eq_tan (N i : Z) : R := tan (- (PI / 4) + IZR i * (PI / 2) / IZR N).
Definition equiangular (N : Z) (X : pt3) : Prop :=
  exists i j k s, (0 <= i <= N)%Z /\ (0 <= j <= N)%Z /\ 0 < k /\ (s = 1 \/ s = -1) /\
    (X = P3 (k * s) (k * eq_tan N i) (k * eq_tan N j) \/ X = P3 (k * eq_tan N i) (k * s) (k * eq_tan N j) \/
     X = P3 (k * eq_tan N i) (k * eq_tan N j) (k * s)).

Section Coords.
Variable N : Z.
Hypothesis HN : (1 <= N)%Z.
Variable radius : R.
Hypothesis Hr : 0 < radius.
Notation h := (eq_tan N).
Notation Nx := (N + 1)%Z.

Lemma NR : 0 < IZR N.
Proof. apply IZR_lt. lia. Qed.
Lemma a_pos : 0 < gn_a radius.
Proof. unfold gn_a. apply Rmult_lt_0_compat; [apply Rinv_0_lt_compat, sqrt_lt_R0; lra | exact Hr]. Qed.
Lemma gn_x_eq m : gn_x radius Nx m = gn_a radius * h m.
Proof.
  unfold gn_x, eq_tan. f_equal. f_equal. replace (-1) with (Ropp 1) by ring. rewrite atan_opp, atan_1.
  replace (Nx - 1)%Z with N by lia. pose proof NR. field. lra.
Qed.
Lemma ang_range m : (0 <= m <= N)%Z -> - (PI / 4) <= - (PI / 4) + IZR m * (PI / 2) / IZR N <= PI / 4.
Proof.
  intros [H1 H2]. pose proof NR as HR. pose proof PI_RGT_0. apply IZR_le in H1, H2.
  assert (0 <= IZR m / IZR N <= 1).
  { split; [apply Rmult_le_pos; [lra | apply Rlt_le, Rinv_0_lt_compat; lra]|].
    apply (Rmult_le_reg_r (IZR N)); [lra|]. unfold Rdiv. rewrite Rmult_assoc, Rinv_l by lra. lra. }
  replace (IZR m * (PI / 2) / IZR N) with (IZR m / IZR N * (PI / 2)) by (field; lra). nra.
Qed.
Lemma h_lt m n : (0 <= m)%Z -> (m < n)%Z -> (n <= N)%Z -> h m < h n.
Proof.
  intros H1 H2 H3. unfold eq_tan. pose proof (ang_range m ltac:(lia)). pose proof (ang_range n ltac:(lia)). pose proof PI_RGT_0.
  apply tan_increasing; [lra| |lra]. apply Rplus_lt_compat_l. pose proof NR. apply IZR_lt in H2.
  unfold Rdiv. apply Rmult_lt_compat_r; [apply Rinv_0_lt_compat; lra|]. apply Rmult_lt_compat_r; lra.
Qed.
Lemma h_inj m n : (0 <= m <= N)%Z -> (0 <= n <= N)%Z -> h m = h n -> m = n.
Proof.
  intros H1 H2 E. destruct (Z.lt_trichotomy m n) as [L | [L | L]]; [|exact L|].
  - pose proof (h_lt m n ltac:(lia) L ltac:(lia)). lra.
  - pose proof (h_lt n m ltac:(lia) L ltac:(lia)). lra.
Qed.
Lemma h_0 : h 0 = -1.
Proof.
  unfold eq_tan. replace (- (PI / 4) + IZR 0 * (PI / 2) / IZR N) with (- (PI / 4)) by (pose proof NR; field; lra).
  rewrite tan_neg, tan_PI4. reflexivity.
Qed.
Lemma h_N : h N = 1.
Proof.
  unfold eq_tan. replace (- (PI / 4) + IZR N * (PI / 2) / IZR N) with (PI / 4) by (pose proof NR; field; lra).
  apply tan_PI4.
Qed.
Lemma h_sub m : h (N - m) = - h m.
Proof.
  unfold eq_tan. rewrite <- tan_neg. f_equal. rewrite minus_IZR. pose proof NR. field. lra.
Qed.
Lemma h_bound m : (0 <= m <= N)%Z -> -1 <= h m <= 1.
Proof.
  intros H. rewrite <- h_0, <- h_N. split.
  - destruct (Z.eq_dec m 0) as [-> | ]; [lra | left; apply h_lt; lia].
  - destruct (Z.eq_dec m N) as [-> | ]; [lra | left; apply h_lt; lia].
Qed.

(** the point of the cube with given lattice coordinates, and its projection *)
Definition G (P : pt) : pt3 := let '(x, y, z) := P in P3 (h x) (h y) (h z).
Definition proj (P : pt) : pt3 := pscal (radius / pnorm (G P)) (G P).

Lemma gn_xyz_eq p r c : (0 <= p < 6)%Z -> gn_xyz radius Nx p r c = pscal (gn_a radius) (G (cpt N p r c)).
Proof.
  intros Hp. unfold gn_xyz, cpt. rewrite !gn_x_eq.
  assert (Hq : (p = 0 \/ p = 1 \/ p = 2 \/ p = 3 \/ p = 4 \/ p = 5)%Z) by lia.
  destruct Hq as [-> | [-> | [-> | [-> | [-> | ->]]]]]; cbn [Z.eqb Pos.eqb G]; unfold pscal; cbn [px py pz];
    rewrite ?h_sub, ?h_0, ?h_N; apply pt_ext; cbn [px py pz]; ring.
Qed.
Lemma pdot_pscal a X : pdot (pscal a X) (pscal a X) = a * a * pdot X X.
Proof. unfold pdot, pscal. cbn. ring. Qed.
Lemma pnorm_pscal a X : 0 <= a -> pnorm (pscal a X) = a * pnorm X.
Proof.
  intros Ha. unfold pnorm. rewrite pdot_pscal, sqrt_mult.
  - rewrite sqrt_square by exact Ha. reflexivity.
  - nra.
  - unfold pdot. nra.
Qed.
(** one coordinate of a point of the cube is 1 or -1 *)
Lemma G_one P : on_cube N P -> let X := G P in
  (px X = 1 \/ px X = -1 \/ py X = 1 \/ py X = -1 \/ pz X = 1 \/ pz X = -1) /\
  -1 <= px X <= 1 /\ -1 <= py X <= 1 /\ -1 <= pz X <= 1.
Proof.
  destruct P as [[x y] z]. intros (Hx & Hy & Hz & H). cbn [G px py pz].
  split; [|repeat split; apply h_bound; assumption].
  destruct H as [-> | [-> | [-> | [-> | [-> | ->]]]]]; rewrite ?h_0, ?h_N; tauto.
Qed.
Lemma G_norm P : on_cube N P -> 1 <= pnorm (G P).
Proof.
  intros H. destruct (G_one P H) as [H1 _]. cbv zeta in H1. unfold pnorm. rewrite <- sqrt_1. apply sqrt_le_1_alt.
  unfold pdot. destruct H1 as [E | [E | [E | [E | [E | E]]]]]; rewrite E; nra.
Qed.
Lemma gn_norm p r c : (0 <= p < 6)%Z ->
  sqrt (gn_a radius * gn_a radius + gn_x radius Nx c * gn_x radius Nx c + gn_x radius Nx r * gn_x radius Nx r)
  = pnorm (gn_xyz radius Nx p r c).
Proof.
  intros Hp. unfold pnorm. f_equal. unfold gn_xyz, pdot.
  assert (Hq : (p = 0 \/ p = 1 \/ p = 2 \/ p = 3 \/ p = 4 \/ p = 5)%Z) by lia.
  destruct Hq as [-> | [-> | [-> | [-> | [-> | ->]]]]]; cbn [Z.eqb Pos.eqb px py pz]; ring.
Qed.
Lemma gn_point_proj p r c : (0 <= p < 6)%Z -> (0 <= r <= N)%Z -> (0 <= c <= N)%Z ->
  gn_point radius Nx p r c = proj (cpt N p r c).
Proof.
  intros Hp Hrr Hc. unfold gn_point. rewrite (gn_norm p r c Hp), gn_xyz_eq by exact Hp. pose proof a_pos as Ha.
  rewrite pnorm_pscal by lra. unfold proj. pose proof (G_norm _ (cpt_on N HN p r c Hp Hrr Hc)) as Hn.
  set (X := G (cpt N p r c)) in *. unfold pscal. apply pt_ext; cbn [px py pz]; field; split; lra.
Qed.

Lemma last_write_app l l' v : last_write (l ++ l') v = match last_write l' v with Some x => Some x | None => last_write l v end.
Proof.
  unfold last_write. rewrite fold_left_app. set (o := fold_left _ l None). generalize o. clear o.
  induction l' as [|w l' IH]; intros o; [reflexivity|]. cbn [fold_left]. destruct (Z.eqb (fst w) v).
  - rewrite (IH (Some (snd w))). destruct (fold_left _ l' None); reflexivity.
  - apply IH.
Qed.
Lemma last_write_consistent l v X : In (v, X) l -> (forall Y, In (v, Y) l -> Y = X) -> last_write l v = Some X.
Proof.
  induction l as [|[u Y] l IH] using rev_ind; [contradiction|]. intros HI HY. rewrite last_write_app.
  unfold last_write at 1. cbn [fold_left fst snd]. destruct (Z.eqb_spec u v) as [-> | Hn].
  - f_equal. apply HY. apply in_or_app. right. left. reflexivity.
  - apply IH; [|intros Z HZ; apply HY, in_or_app; left; exact HZ].
    apply in_app_or in HI as [HI | [E | []]]; [exact HI | congruence].
Qed.
Lemma in_writes v Y : In (v, Y) (coord_writes radius Nx) <->
  exists p r c, (0 <= p < 6 /\ 0 <= r <= N /\ 0 <= c <= N)%Z /\ v = num N (cpt N p r c) /\ Y = proj (cpt N p r c).
Proof.
  unfold coord_writes. rewrite in_flat_map. split.
  - intros (p & Hp%in_zrange & H). apply in_flat_map in H as (r & Hrr%in_zrange & H). apply in_map_iff in H as (c & E & Hc%in_zrange).
    exists p, r, c. split; [lia|]. rewrite <- pn_num, <- gn_point_proj by lia. split; congruence.
  - intros (p & r & c & (Hp & Hrr & Hc) & -> & ->). exists p. split; [apply in_zrange; lia|]. apply in_flat_map.
    exists r. split; [apply in_zrange; lia|]. apply in_map_iff. exists c. split; [|apply in_zrange; lia].
    rewrite <- pn_num, <- gn_point_proj by lia. reflexivity.
Qed.
Lemma on_panel P : on_cube N P -> exists p r c, (0 <= p < 6 /\ 0 <= r <= N /\ 0 <= c <= N)%Z /\ cpt N p r c = P.
Proof.
  destruct P as [[x y] z]. intros (Hx & Hy & Hz & H).
  destruct H as [-> | [-> | [-> | [-> | [-> | ->]]]]].
  - exists 1%Z, y, (N - z)%Z. split; [lia|]. cbn. f_equal. lia.
  - exists 2%Z, y, z. split; [lia|]. reflexivity.
  - exists 4%Z, (N - z)%Z, x. split; [lia|]. cbn. f_equal. lia.
  - exists 3%Z, z, x. split; [lia|]. reflexivity.
  - exists 0%Z, y, x. split; [lia|]. reflexivity.
  - exists 5%Z, (N - y)%Z, x. split; [lia|]. cbn. f_equal. f_equal. lia.
Qed.
Lemma coords_of P : on_cube N P -> cube_coords radius Nx (num N P) = Some (proj P).
Proof.
  intros HP. unfold cube_coords. apply last_write_consistent.
  - apply in_writes. destruct (on_panel P HP) as (p & r & c & H & <-). eauto 6.
  - intros Y HY. apply in_writes in HY as (p & r & c & (Hp & Hrr & Hc) & E & ->).
    apply num_inj in E; [rewrite E; reflexivity | exact HN | exact HP | apply cpt_on; assumption].
Qed.
Lemma proj_norm P : on_cube N P -> pnorm (proj P) = radius.
Proof.
  intros HP. unfold proj. pose proof (G_norm P HP). rewrite pnorm_pscal; [field; lra|].
  apply Rlt_le, Rmult_lt_0_compat; [exact Hr | apply Rinv_0_lt_compat; lra].
Qed.
Lemma proj_inj P Q : on_cube N P -> on_cube N Q -> proj P = proj Q -> P = Q.
Proof.
  intros HP HQ E. pose proof (G_norm P HP) as NP. pose proof (G_norm Q HQ) as NQ.
  destruct (G_one P HP) as [OP BP], (G_one Q HQ) as [OQ BQ]. cbv zeta in *.
  unfold proj in E. set (k1 := radius / pnorm (G P)) in *. set (k2 := radius / pnorm (G Q)) in *.
  assert (K1 : 0 < k1) by (apply Rmult_lt_0_compat; [exact Hr | apply Rinv_0_lt_compat; lra]).
  assert (K2 : 0 < k2) by (apply Rmult_lt_0_compat; [exact Hr | apply Rinv_0_lt_compat; lra]).
  pose proof (f_equal px E) as Ex. pose proof (f_equal py E) as Ey. pose proof (f_equal pz E) as Ez. cbn in Ex, Ey, Ez.
  clear E. clearbody k1 k2.
  assert (L1 : k1 <= k2) by (clear - OP BQ K1 K2 Ex Ey Ez; destruct OP as [E | [E | [E | [E | [E | E]]]]]; rewrite E in *; nra).
  assert (L2 : k2 <= k1) by (clear - OQ BP K1 K2 Ex Ey Ez; destruct OQ as [E | [E | [E | [E | [E | E]]]]]; rewrite E in *; nra).
  assert (k1 = k2) by lra. subst k2. clear L1 L2.
  apply Rmult_eq_reg_l in Ex; [|lra]. apply Rmult_eq_reg_l in Ey; [|lra]. apply Rmult_eq_reg_l in Ez; [|lra].
  destruct P as [[x y] z], Q as [[x' y'] z']. cbn [G px py pz] in Ex, Ey, Ez.
  destruct HP as (? & ? & ? & _), HQ as (? & ? & ? & _).
  apply h_inj in Ex; [|lia..]. apply h_inj in Ey; [|lia..]. apply h_inj in Ez; [|lia..]. congruence.
Qed.
Lemma proj_equiangular P : on_cube N P -> equiangular N (proj P).
Proof.
  intros HP. pose proof (G_norm P HP) as NP. unfold proj. set (k := radius / pnorm (G P)).
  assert (K : 0 < k) by (apply Rmult_lt_0_compat; [exact Hr | apply Rinv_0_lt_compat; lra]). clearbody k.
  destruct P as [[x y] z]. destruct HP as (Hx & Hy & Hz & H). unfold equiangular, pscal. cbn [G px py pz].
  destruct H as [-> | [-> | [-> | [-> | [-> | ->]]]]]; rewrite ?h_0, ?h_N.
  - exists y, z, k, (-1). repeat split; auto; lia.
  - exists y, z, k, 1. repeat split; auto; lia.
  - exists x, z, k, (-1). repeat split; auto; lia.
  - exists x, z, k, 1. repeat split; auto; lia.
  - exists x, y, k, (-1). repeat split; auto; lia.
  - exists x, y, k, 1. repeat split; auto; lia.
Qed.
(** the outward axis of a panel *)
Definition axis (p : Z) : pt3 :=
  if (p =? 0)%Z then P3 0 0 (-1) else if (p =? 1)%Z then P3 (-1) 0 0 else if (p =? 2)%Z then P3 1 0 0
  else if (p =? 3)%Z then P3 0 1 0 else if (p =? 4)%Z then P3 0 (-1) 0 else P3 0 0 1.
Lemma axis_pos p r c : (0 <= p < 6)%Z -> (0 <= r <= N)%Z -> (0 <= c <= N)%Z -> 0 < pdot (axis p) (proj (cpt N p r c)).
Proof.
  intros Hp Hrr Hc. pose proof (G_norm _ (cpt_on N HN p r c Hp Hrr Hc)) as Hn. unfold proj.
  set (k := radius / pnorm (G (cpt N p r c))).
  assert (K : 0 < k) by (apply Rmult_lt_0_compat; [exact Hr | apply Rinv_0_lt_compat; lra]). clearbody k.
  unfold axis, cpt, pdot. clear Hn.
  assert (Hq : (p = 0 \/ p = 1 \/ p = 2 \/ p = 3 \/ p = 4 \/ p = 5)%Z) by lia.
  destruct Hq as [-> | [-> | [-> | [-> | [-> | ->]]]]]; cbn [Z.eqb Pos.eqb G px py pz pscal]; rewrite ?h_0, ?h_N; lra.
Qed.
End Coords.

(** ** The theorems *)

(** Every vertex of the mesh gets one position - whichever of the panels that share it writes it
    last -, at distance [radius] from the centre and at an equiangular gnomonic point of the cube. *)
Theorem cubed_vertices_on_sphere : forall N radius, (1 <= N)%Z -> 0 < radius ->
  (forall v, (0 <= v < npoints (N + 1))%Z ->
     exists X, cube_coords radius (N + 1) v = Some X /\ pnorm X = radius /\ equiangular N X) /\
  (forall p r c, (0 <= p < 6)%Z -> (0 <= r <= N)%Z -> (0 <= c <= N)%Z ->
     cube_coords radius (N + 1) (panel_numbering (N + 1) p r c) = Some (gn_point radius (N + 1) p r c)).
Proof.
  intros N radius HN Hr.
  assert (En : npoints (N + 1) = (6 * N * N + 2)%Z).
  { unfold npoints. unfold count2. unfold count1. unfold count3. unfold count4. unfold count5. lia. }
  split.
  - intros v Hv. rewrite En in Hv. destruct (num_surj N HN v Hv) as (P & HP & <-). exists (proj N radius P).
    split; [apply coords_of; assumption|]. split; [apply proj_norm; assumption | apply proj_equiangular; assumption].
  - intros p r c Hp Hrr Hc. rewrite pn_num, gn_point_proj by assumption. apply coords_of; [assumption..|]. apply cpt_on; assumption.
Qed.
(** Different vertices are at different places. *)
Theorem cubed_vertices_distinct : forall N radius v w X, (1 <= N)%Z -> 0 < radius ->
  (0 <= v < npoints (N + 1))%Z -> (0 <= w < npoints (N + 1))%Z ->
  cube_coords radius (N + 1) v = Some X -> cube_coords radius (N + 1) w = Some X -> v = w.
Proof.
  intros N radius v w X HN Hr Hv Hw.
  assert (En : npoints (N + 1) = (6 * N * N + 2)%Z).
  { unfold npoints. unfold count2. unfold count1. unfold count3. unfold count4. unfold count5. lia. }
  rewrite En in *. destruct (num_surj N HN v Hv) as (P & HP & <-), (num_surj N HN w Hw) as (Q & HQ & <-).
  rewrite !coords_of by assumption. intros E1 E2. f_equal. apply (proj_inj N HN radius Hr); congruence.
Qed.
(** With degree > 1 the nodes between the vertices of a cell are pushed out to the sphere too:
    no weighted mean of the vertices of a cell is the centre. *)
Theorem cubed_higher_degree : forall N degree radius qs a b c d A B C D w1 w2 w3 w4, (1 <= N)%Z -> 0 < radius ->
  cubed_cells N degree = Ok qs -> In (a, b, c, d) qs ->
  cube_coords radius (N + 1) a = Some A -> cube_coords radius (N + 1) b = Some B ->
  cube_coords radius (N + 1) c = Some C -> cube_coords radius (N + 1) d = Some D ->
  0 <= w1 -> 0 <= w2 -> 0 <= w3 -> 0 <= w4 -> w1 + w2 + w3 + w4 = 1 ->
  pnorm (push_out radius (padd (padd (pscal w1 A) (pscal w2 B)) (padd (pscal w3 C) (pscal w4 D)))) = radius.
Proof.
  intros N degree radius qs a b c d A B C D w1 w2 w3 w4 HN Hr Hq HI HA HB HC HD W1 W2 W3 W4 W.
  unfold cubed_cells in Hq. destruct (Z.ltb_spec N 1); [lia|]. destruct (Z.ltb_spec degree 1); [discriminate|].
  assert (qs = mesh_quads N) as -> by (rewrite <- cube_cells_eq; congruence). clear Hq.
  apply quad_in in HI as (p & [r0 c0] & Hp & Hs & E).
  apply in_squares in Hs as Hs'. unfold sq_valid in Hs. cbn [fst snd] in Hs. rewrite !andb_true_iff, !Z.leb_le in Hs.
  unfold cell_of, cube_cell in E. cbn [fst snd] in E.
  assert (K : forall r1 c1 v V, (0 <= r1 <= N)%Z -> (0 <= c1 <= N)%Z -> v = panel_numbering (N + 1) p r1 c1 ->
     cube_coords radius (N + 1) v = Some V -> 0 < pdot (axis p) V).
  { intros r1 c1 v V R1 C1 -> HV. rewrite pn_num, coords_of in HV by (try assumption; apply cpt_on; assumption).
    inversion HV. apply axis_pos; assumption. }
  injection E as Ea Eb Ec Ed.
  apply (K r0 c0) in HA; [|lia|lia|assumption]. apply (K (r0 + 1) c0)%Z in HB; [|lia|lia|assumption].
  apply (K (r0 + 1) (c0 + 1))%Z in HC; [|lia|lia|assumption]. apply (K r0 (c0 + 1))%Z in HD; [|lia|lia|assumption].
  set (S := padd _ _). assert (P : 0 < pdot (axis p) S).
  { assert (L : pdot (axis p) S = w1 * pdot (axis p) A + w2 * pdot (axis p) B + w3 * pdot (axis p) C + w4 * pdot (axis p) D)
      by (unfold S, pdot, padd, pscal; cbn [px py pz]; ring).
    rewrite L. destruct (Rle_lt_dec w1 0); [|nra]. destruct (Rle_lt_dec w2 0); [|nra]. destruct (Rle_lt_dec w3 0); nra. }
  clearbody S. unfold push_out. assert (0 < pnorm S).
  { unfold pnorm. apply sqrt_lt_R0. destruct S as [x y z]. unfold pdot in *. cbn [px py pz] in *.
    destruct (Req_dec x 0) as [-> | ]; [|nra]. destruct (Req_dec y 0) as [-> | ]; [|nra]. destruct (Req_dec z 0) as [-> | ]; nra. }
  rewrite pnorm_pscal; [field; lra|]. apply Rlt_le, Rmult_lt_0_compat; [exact Hr | apply Rinv_0_lt_compat; lra].
Qed.
(** one cell per panel edge: a cube; its first vertex *)
Theorem cubed_vertices_example : cube_coords (sqrt 3) 2 0 = Some (P3 (-1) (-1) (-1)) /\ npoints 2 = 8%Z.
Proof.
  split; [|reflexivity].
  destruct (cubed_vertices_on_sphere 1 (sqrt 3) ltac:(lia) ltac:(apply sqrt_lt_R0; lra)) as [_ H].
  specialize (H 0 0 0 ltac:(lia) ltac:(lia) ltac:(lia))%Z. change (panel_numbering (1 + 1) 0 0 0) with 0%Z in H.
  change (1 + 1)%Z with 2%Z in H. rewrite H. f_equal. change 2%Z with (1 + 1)%Z. rewrite gn_point_proj; [|lia|apply sqrt_lt_R0; lra|lia..].
  unfold proj, cpt. cbn [Z.eqb G]. rewrite (h_0 1) by lia. unfold pnorm, pdot. cbn [px py pz].
  replace (-1 * -1 + -1 * -1 + -1 * -1) with 3 by ring. unfold pscal. cbn [px py pz].
  assert (sqrt 3 <> 0) by (apply Rgt_not_eq, sqrt_lt_R0; lra). apply pt_ext; cbn [px py pz]; field; assumption.
Qed.
