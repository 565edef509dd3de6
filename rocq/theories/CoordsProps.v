(** Theorems about coordinate transforms: C51, C52, C53 and great-circle distances. *)
From Coq Require Import Reals Lra Lia List.
From Verif Require Import Coords.
Local Open Scope R_scope.

Lemma V_eq : forall a b c d e f, a = d -> b = e -> c = f -> V a b c = V d e f.
Proof. congruence. Qed.
Ltac eq3 := apply V_eq.
Lemma sq1 : forall a, sin a * sin a = 1 - cos a * cos a.
Proof. intros. pose proof (sin2_cos2 a) as H. unfold Rsqr in H. lra. Qed.

(** ** atan2 *)
Lemma hyp_pos : forall x y, (x <> 0 \/ y <> 0) -> 0 < sqrt (x ^ 2 + y ^ 2).
Proof. intros x y H. apply sqrt_lt_R0. destruct H; nra. Qed.
Lemma sqrt_ratio : forall x y, x <> 0 -> sqrt (1 + Rsqr (y / x)) = sqrt (x ^ 2 + y ^ 2) / Rabs x.
Proof.
  intros x y H. assert (Hx : 0 < Rabs x) by (apply Rabs_pos_lt; auto).
  replace (1 + Rsqr (y / x)) with ((x ^ 2 + y ^ 2) / (Rabs x * Rabs x)).
  - rewrite sqrt_div_alt by nra. rewrite sqrt_square by lra. reflexivity.
  - replace (Rabs x * Rabs x) with (x * x) by (rewrite <- Rabs_mult, Rabs_right; nra). unfold Rsqr. field. auto.
Qed.
Lemma atan2_polar : forall x y, let r := sqrt (x ^ 2 + y ^ 2) in r * cos (atan2 y x) = x /\ r * sin (atan2 y x) = y.
Proof.
  intros x y r. assert (Neg : forall a, cos (a - PI) = - cos a /\ sin (a - PI) = - sin a).
  { intros a. rewrite cos_minus, sin_minus, cos_PI, sin_PI. split; ring. }
  unfold atan2. destruct (Rlt_dec 0 x) as [P|P].
  - assert (0 < r) by (apply hyp_pos; left; lra). rewrite cos_atan, sin_atan, sqrt_ratio by lra. fold r.
    rewrite (Rabs_right x) by lra. split; field; lra.
  - destruct (Rlt_dec x 0) as [N|N].
    + assert (0 < r) by (apply hyp_pos; left; lra).
      assert (r * cos (atan (y / x)) = - x /\ r * sin (atan (y / x)) = - y) as [C S].
      { rewrite cos_atan, sin_atan, sqrt_ratio by lra. fold r. rewrite (Rabs_left x) by lra. split; field; lra. }
      destruct (Rle_dec 0 y).
      * rewrite neg_cos, neg_sin. lra.
      * destruct (Neg (atan (y / x))) as [-> ->]. lra.
    + assert (x = 0) by lra. unfold r. subst x. replace (0 ^ 2 + y ^ 2) with (y * y) by ring.
      destruct (Rlt_dec 0 y); [|destruct (Rlt_dec y 0)].
      * rewrite sqrt_square by lra. rewrite cos_PI2, sin_PI2. lra.
      * replace (y * y) with ((- y) * (- y)) by ring. rewrite sqrt_square by lra. rewrite cos_neg, sin_neg, cos_PI2, sin_PI2. lra.
      * assert (y = 0) by lra. subst. rewrite Rmult_0_l, sqrt_0. lra.
Qed.
Lemma atan2_range : forall y x, - PI < atan2 y x <= PI.
Proof.
  intros y x. pose proof PI_RGT_0. pose proof (atan_bound (y / x)) as B. unfold atan2.
  destruct (Rlt_dec 0 x); [lra|]. destruct (Rlt_dec x 0) as [N|N].
  - assert (D : y / x = - y / - x) by (field; lra).
    destruct (Rle_dec 0 y).
    + assert (y / x <= 0). { rewrite D. apply Rmult_le_reg_r with (- x); [lra|]. unfold Rdiv. rewrite Rmult_assoc, Rinv_l by lra. lra. }
      destruct H0 as [H0|H0]; [pose proof (atan_increasing _ _ H0) as A; rewrite atan_0 in A; lra|rewrite H0, atan_0; lra].
    + assert (0 < y / x). { rewrite D. apply Rdiv_lt_0_compat; lra. } pose proof (atan_increasing _ _ H0) as A. rewrite atan_0 in A. lra.
  - destruct (Rlt_dec 0 y); [lra|]. destruct (Rlt_dec y 0); lra.
Qed.
(** angles in (-pi, pi] are determined by their cosine and sine *)
Lemma angle_unique : forall a b, - PI < a <= PI -> - PI < b <= PI -> cos a = cos b -> sin a = sin b -> a = b.
Proof.
  intros a b Ha Hb C S. assert (E : cos (a - b) = 1) by (rewrite cos_minus, C, S; pose proof (sin2_cos2 b) as H; unfold Rsqr in H; lra).
  assert (Z : sin (a - b) = 0). { rewrite sin_minus, C, S. ring. }
  destruct (Rtotal_order a b) as [L|[L|L]]; auto; exfalso.
  - destruct (Rle_lt_dec (b - a) PI) as [Q|Q].
    + assert (0 < sin (b - a) \/ b - a = PI) as [X|X]. { destruct Q as [Q|Q]; [left; apply sin_gt_0; lra|auto]. }
      * replace (b - a) with (- (a - b)) in X by ring. rewrite sin_neg in X. lra.
      * replace (a - b) with (- PI) in E by lra. rewrite cos_neg, cos_PI in E. lra.
    + assert (sin (b - a) < 0). { apply sin_lt_0; lra. } replace (b - a) with (- (a - b)) in H by ring. rewrite sin_neg in H. lra.
  - destruct (Rle_lt_dec (a - b) PI) as [Q|Q].
    + destruct Q as [Q|Q]; [assert (0 < sin (a - b)) by (apply sin_gt_0; lra); lra|]. rewrite Q, cos_PI in E. lra.
    + assert (sin (a - b) < 0) by (apply sin_lt_0; lra). lra.
Qed.
Lemma atan2_of_polar : forall r a, 0 < r -> - PI < a <= PI -> atan2 (r * sin a) (r * cos a) = a.
Proof.
  intros r a Hr Ha. destruct (atan2_polar (r * cos a) (r * sin a)) as [C S].
  replace ((r * cos a) ^ 2 + (r * sin a) ^ 2) with (r * r) in C, S.
  - rewrite sqrt_square in C, S by lra. apply Rmult_eq_reg_l in C; [|lra]. apply Rmult_eq_reg_l in S; [|lra].
    apply angle_unique; auto using atan2_range.
  - pose proof (sq1 a). transitivity (r * r * (cos a * cos a + sin a * sin a)); [rewrite H; ring|ring].
Qed.

(** ** C51 coordinates *)
Lemma rad_inv : forall u a, to_rad u (of_rad u a) = a.
Proof. intros [] a; simpl; pose proof PI_RGT_0; field; lra. Qed.
Lemma rad_inv2 : forall u a, of_rad u (to_rad u a) = a.
Proof. intros [] a; simpl; pose proof PI_RGT_0; field; lra. Qed.
(** every point is recovered from its spherical coordinates, in both units *)
Theorem xyz_lonlatr_xyz : forall p u, let '(lon, lat, r) := lonlatr_from_xyz p u in xyz_from_lonlatr lon lat r u = p.
Proof.
  intros [x y z] u. unfold lonlatr_from_xyz, xyz_from_lonlatr. simpl vx. simpl vy. simpl vz. rewrite !rad_inv.
  set (l := sqrt (x ^ 2 + y ^ 2)). assert (0 <= l) by apply sqrt_pos.
  assert (L2 : l ^ 2 = x ^ 2 + y ^ 2) by (unfold l; rewrite <- Rsqr_pow2; apply Rsqr_sqrt; nra).
  destruct (atan2_polar x y) as [C S]. fold l in C, S. destruct (atan2_polar l z) as [C2 S2]. rewrite L2 in C2, S2.
  set (r := sqrt (x ^ 2 + y ^ 2 + z ^ 2)) in *.
  assert (L : r * cos (atan2 z l) = l) by exact C2.
  eq3; [transitivity (l * cos (atan2 y x)); [rewrite <- L at 2; ring|exact C]|transitivity (l * sin (atan2 y x)); [rewrite <- L at 2; ring|exact S]|exact S2].
Qed.
(** spherical coordinates are recovered too, away from the poles and with longitude in (-pi, pi] *)
Theorem lonlatr_xyz_lonlatr : forall lon lat r u, 0 < r -> - PI < to_rad u lon <= PI -> - PI / 2 < to_rad u lat < PI / 2 ->
  lonlatr_from_xyz (xyz_from_lonlatr lon lat r u) u = (lon, lat, r).
Proof.
  intros lon lat r u Hr Hlon Hlat. unfold xyz_from_lonlatr, lonlatr_from_xyz. simpl vx. simpl vy. simpl vz.
  set (a := to_rad u lon) in *. set (b := to_rad u lat) in *.
  assert (Hc : 0 < cos b) by (apply cos_gt_0; lra). pose proof PI_RGT_0.
  assert (E : (r * cos a * cos b) ^ 2 + (r * sin a * cos b) ^ 2 = (r * cos b) * (r * cos b)).
  { pose proof (sq1 a) as Sa. transitivity (r * r * cos b * cos b * (cos a * cos a + sin a * sin a)); [ring|rewrite Sa; ring]. }
  assert (E2 : (r * cos a * cos b) ^ 2 + (r * sin a * cos b) ^ 2 + (r * sin b) ^ 2 = r * r).
  { rewrite E. pose proof (sq1 b) as Sb. transitivity (r * r * (cos b * cos b + sin b * sin b)); [ring|rewrite Sb; ring]. }
  assert (P : 0 < r * cos b) by nra.
  rewrite E2, E, !sqrt_square by lra.
  replace (r * cos a * cos b) with (r * cos b * cos a) by ring. replace (r * sin a * cos b) with (r * cos b * sin a) by ring.
  rewrite (atan2_of_polar (r * cos b) a) by (auto; lra). rewrite (atan2_of_polar r b) by lra.
  unfold a, b. rewrite !rad_inv2. reflexivity.
Qed.
(** what is returned is always in the documented ranges *)
Theorem lonlatr_ranges : forall p, let '(lon, lat, r) := lonlatr_from_xyz p Rad in - PI < lon <= PI /\ - (PI / 2) <= lat <= PI / 2 /\ 0 <= r.
Proof.
  intros p. unfold lonlatr_from_xyz, of_rad. rewrite !Rmult_1_r. split; [apply atan2_range|]. split; [|apply sqrt_pos].
  pose proof PI_RGT_0. set (l := sqrt _). assert (0 <= l) by apply sqrt_pos. unfold atan2. pose proof (atan_bound (vz p / l)).
  destruct (Rlt_dec 0 l); [lra|]. destruct (Rlt_dec l 0); [lra|]. destruct (Rlt_dec 0 (vz p)); [lra|]. destruct (Rlt_dec (vz p) 0); lra.
Qed.

(** ** C51 vectors: at every position (given in any units) the two conversions are inverse
    to each other and preserve length *)
Theorem components_round_trip : forall f pos,
  (let '(a, b, c) := lonlatr_components_from_xyz f pos in xyz_vector_from_lonlatr a b c pos = f) /\
  (forall a b c, lonlatr_components_from_xyz (xyz_vector_from_lonlatr a b c pos) pos = (a, b, c)).
Proof.
  intros [x y z] pos. unfold lonlatr_components_from_xyz, xyz_vector_from_lonlatr. destruct (lonlat_of pos) as [lon lat].
  pose proof (sq1 lon) as S1. pose proof (sq1 lat) as S2. simpl.
  set (c1 := cos lon) in *. set (s1 := sin lon) in *. set (c2 := cos lat) in *. set (s2 := sin lat) in *.
  split.
  - eq3.
    + transitivity (x * (c1 * c1 * (c2 * c2 + s2 * s2) + s1 * s1) + y * (c1 * s1 * (c2 * c2 + s2 * s2) - c1 * s1)); [ring|rewrite S1, S2; ring].
    + transitivity (x * (c1 * s1 * (c2 * c2 + s2 * s2) - c1 * s1) + y * (s1 * s1 * (c2 * c2 + s2 * s2) + c1 * c1)); [ring|rewrite S1, S2; ring].
    + transitivity (z * (s2 * s2 + c2 * c2)); [ring|rewrite S2; ring].
  - intros a b c. apply f_equal2; [apply f_equal2|].
    + transitivity (a * (s1 * s1 + c1 * c1)); [ring|rewrite S1; ring].
    + transitivity (b * (s2 * s2 * (c1 * c1 + s1 * s1) + c2 * c2) + c * (c2 * s2 - c2 * s2 * (c1 * c1 + s1 * s1))); [ring|rewrite S1, S2; ring].
    + transitivity (c * (c2 * c2 * (c1 * c1 + s1 * s1) + s2 * s2) + b * (c2 * s2 - c2 * s2 * (c1 * c1 + s1 * s1))); [ring|rewrite S1, S2; ring].
Qed.
Theorem components_keep_length : forall a b c pos, dot3 (xyz_vector_from_lonlatr a b c pos) (xyz_vector_from_lonlatr a b c pos) = a * a + b * b + c * c.
Proof.
  intros a b c pos. unfold xyz_vector_from_lonlatr, dot3. destruct (lonlat_of pos) as [lon lat].
  pose proof (sq1 lon) as S1. pose proof (sq1 lat) as S2. simpl.
  set (c1 := cos lon) in *. set (s1 := sin lon) in *. set (c2 := cos lat) in *. set (s2 := sin lat) in *.
  transitivity (a * a * (c1 * c1 + s1 * s1) + b * b * (s2 * s2 * (c1 * c1 + s1 * s1) + c2 * c2) + c * c * (c2 * c2 * (c1 * c1 + s1 * s1) + s2 * s2)
     + 2 * b * c * (c2 * s2 - c2 * s2 * (c1 * c1 + s1 * s1))); [ring|rewrite S1, S2; ring].
Qed.
(** "radial" means along the position vector: the position vector itself is (0, 0, r) *)
Theorem position_is_radial : forall p, lonlatr_components_from_xyz p (XYZ p) = (0, 0, sqrt (dot3 p p)).
Proof.
  intros p. pose proof (xyz_lonlatr_xyz p Rad) as E. unfold lonlatr_components_from_xyz, lonlat_of.
  destruct (lonlatr_from_xyz p Rad) as [[lon lat] r] eqn:L. 
  assert (Hr : r = sqrt (dot3 p p)). { unfold lonlatr_from_xyz in L. injection L. intros <- _ _. unfold dot3. f_equal. ring. }
  rewrite <- Hr. rewrite <- E. unfold xyz_from_lonlatr, to_rad. rewrite !Rmult_1_r. simpl.
  pose proof (sq1 lon) as S1. pose proof (sq1 lat) as S2.
  set (c1 := cos lon) in *. set (s1 := sin lon) in *. set (c2 := cos lat) in *. set (s2 := sin lat) in *.
  apply f_equal2; [apply f_equal2|].
  - ring.
  - transitivity (r * c2 * s2 * (1 - (c1 * c1 + s1 * s1))); [ring|rewrite S1; ring].
  - transitivity (r * (c2 * c2 * (c1 * c1 + s1 * s1) + s2 * s2)); [ring|rewrite S1, S2; ring].
Qed.

(** ** C51 rotations *)
Section Rodrigues.
Variables (k : v3) (Hk : dot3 k k = 1).
Lemma kz2 : vz k * vz k = 1 - vx k * vx k - vy k * vy k.
Proof. unfold dot3 in Hk. lra. Qed.
(** rotations preserve inner products, hence lengths and angles *)
Theorem rotation_preserves_dot : forall a b t, dot3 (rodrigues_rotation a k t) (rodrigues_rotation b k t) = dot3 a b.
Proof.
  intros [a1 a2 a3] [b1 b2 b3] t. pose proof kz2 as K. destruct k as [k1 k2 k3]. simpl in K. clear Hk.
  unfold rodrigues_rotation, dot3, add3, scale3, cross3. simpl. pose proof (sq1 t) as T. set (c := cos t) in *. set (s := sin t) in *. clearbody c s.
  (* collect by powers of s *)
  set (A := a1 * b1 + a2 * b2 + a3 * b3). set (ka := k1 * a1 + k2 * a2 + k3 * a3). set (kb := k1 * b1 + k2 * b2 + k3 * b3). set (kk := k1 * k1 + k2 * k2 + k3 * k3).
  transitivity (c * c * A + s * s * (kk * A - ka * kb) + 2 * c * (1 - c) * ka * kb + (1 - c) * (1 - c) * ka * kb * kk); [unfold A, ka, kb, kk; ring|].
  assert (KK : kk = 1) by (unfold kk; lra). rewrite KK, T. ring.
Qed.
(** rotating by an angle and then by another is rotating by the sum *)
Theorem rotation_compose : forall a t u, rodrigues_rotation (rodrigues_rotation a k t) k u = rodrigues_rotation a k (t + u).
Proof.
  intros [a1 a2 a3] t u. pose proof kz2 as K. destruct k as [k1 k2 k3]. simpl in K. clear Hk.
  unfold rodrigues_rotation, dot3, add3, scale3, cross3. simpl. rewrite cos_plus, sin_plus.
  set (c := cos t). set (s := sin t). set (d := cos u). set (v := sin u). clearbody c s d v.
  set (ka := k1 * a1 + k2 * a2 + k3 * a3). set (kk := k1 * k1 + k2 * k2 + k3 * k3). assert (KK : kk = 1) by (unfold kk; lra).
  eq3.
  - transitivity (d * (c * a1 + s * (k2 * a3 - k3 * a2) + ka * (1 - c) * k1) + v * (c * (k2 * a3 - k3 * a2) + s * (k1 * ka - kk * a1)) + ka * (c + (1 - c) * kk) * (1 - d) * k1); [unfold ka, kk; ring|rewrite KK; ring].
  - transitivity (d * (c * a2 + s * (k3 * a1 - k1 * a3) + ka * (1 - c) * k2) + v * (c * (k3 * a1 - k1 * a3) + s * (k2 * ka - kk * a2)) + ka * (c + (1 - c) * kk) * (1 - d) * k2); [unfold ka, kk; ring|rewrite KK; ring].
  - transitivity (d * (c * a3 + s * (k1 * a2 - k2 * a1) + ka * (1 - c) * k3) + v * (c * (k1 * a2 - k2 * a1) + s * (k3 * ka - kk * a3)) + ka * (c + (1 - c) * kk) * (1 - d) * k3); [unfold ka, kk; ring|rewrite KK; ring].
Qed.
Lemma rotation_zero : forall a, rodrigues_rotation a k 0 = a.
Proof. intros [a1 a2 a3]. unfold rodrigues_rotation, add3, scale3, cross3, dot3. rewrite cos_0, sin_0. simpl. eq3; ring. Qed.
Theorem rotation_undone : forall a t, rodrigues_rotation (rodrigues_rotation a k t) k (- t) = a /\ rodrigues_rotation (rodrigues_rotation a k (- t)) k t = a.
Proof. intros. rewrite !rotation_compose. replace (t + - t) with 0 by ring. replace (- t + t) with 0 by ring. rewrite rotation_zero. auto. Qed.
Theorem rotation_fixes_axis : forall t, rodrigues_rotation k k t = k.
Proof.
  intros t. unfold rodrigues_rotation. rewrite Hk. destruct k as [k1 k2 k3]. unfold add3, scale3, cross3. simpl. eq3; ring.
Qed.
End Rodrigues.
Lemma pole_axis : forall lon lat, fst (pole_rotation lon lat) = V (- sin lon) (cos lon) 0.
Proof.
  intros. unfold pole_rotation, xyz_vector_from_lonlatr. simpl. rewrite cos_0, sin_0.
  rewrite cos_plus, sin_plus, cos_PI2, sin_PI2. eq3; ring.
Qed.
Lemma pole_axis_unit : forall lon lat, dot3 (fst (pole_rotation lon lat)) (fst (pole_rotation lon lat)) = 1.
Proof. intros. rewrite pole_axis. unfold dot3. simpl. pose proof (sq1 lon). lra. Qed.
(** the rotation returned for a new pole moves the old pole to the new one, for every pole *)
Theorem pole_rotation_moves_pole : forall lon lat, let '(axis, angle) := pole_rotation lon lat in
  rodrigues_rotation (V 0 0 1) axis angle = xyz_from_lonlatr lon lat 1 Rad.
Proof.
  intros lon lat. pose proof (pole_axis lon lat) as A. destruct (pole_rotation lon lat) as [axis angle] eqn:E. simpl in A. subst axis.
  pose proof (f_equal snd E) as A2. simpl in A2. subst angle.
  unfold rodrigues_rotation, add3, scale3, cross3, dot3, xyz_from_lonlatr, to_rad. simpl. rewrite !Rmult_1_r.
  rewrite cos_shift, sin_shift. eq3; ring.
Qed.

(** ** C52: the rotated coordinates.  The same forward rotation is applied to the points, so the
    point that gets latitude 90 degrees is (lon + pi, lat), not the requested pole: *)
Lemma rotate_point : forall lon lat m b, let '(axis, angle) := pole_rotation lon lat in
  vz (rodrigues_rotation (xyz_from_lonlatr m b 1 Rad) axis angle) = sin lat * sin b - cos lat * cos b * cos (m - lon).
Proof.
  intros lon lat m b. pose proof (pole_axis lon lat) as A. destruct (pole_rotation lon lat) as [axis angle] eqn:E. simpl in A. subst axis.
  pose proof (f_equal snd E) as A2. simpl in A2. subst angle.
  unfold rodrigues_rotation, add3, scale3, cross3, dot3, xyz_from_lonlatr, to_rad. simpl. rewrite !Rmult_1_r.
  rewrite cos_shift, sin_shift, cos_minus. ring.
Qed.
Theorem rotated_pole_partial : forall lon lat,
  rotated_lonlatr_coords (xyz_from_lonlatr (lon + PI) lat 1 Rad) lon lat = (0, PI / 2, 1).
Proof.
  intros lon lat. unfold rotated_lonlatr_coords. pose proof (rotate_point lon lat (lon + PI) lat) as Z. pose proof (pole_axis_unit lon lat) as U.
  destruct (pole_rotation lon lat) as [axis angle] eqn:E. simpl in U. set (p := xyz_from_lonlatr (lon + PI) lat 1 Rad) in *.
  assert (Z1 : vz (rodrigues_rotation p axis angle) = 1).
  { rewrite Z. replace (lon + PI - lon) with PI by ring. rewrite cos_PI. pose proof (sq1 lat). lra. }
  assert (N : dot3 (rodrigues_rotation p axis angle) (rodrigues_rotation p axis angle) = 1).
  { rewrite rotation_preserves_dot by auto. unfold p, dot3, xyz_from_lonlatr, to_rad. simpl. rewrite !Rmult_1_r.
    pose proof (sq1 (lon + PI)) as S1. pose proof (sq1 lat) as S2. set (c1 := cos (lon + PI)) in *. set (s1 := sin (lon + PI)) in *. set (c2 := cos lat) in *. set (s2 := sin lat) in *.
    transitivity ((c1 * c1 + s1 * s1) * c2 * c2 + s2 * s2); [ring|rewrite S1, S2; ring]. }
  clear Z. destruct (rodrigues_rotation p axis angle) as [x y z]. unfold dot3 in N. simpl in *. subst z.
  assert (x = 0) by nra. assert (y = 0) by nra. subst. unfold lonlatr_from_xyz, of_rad. simpl vx. simpl vy. simpl vz.
  replace (0 ^ 2 + 0 ^ 2 + 1 ^ 2) with 1 by ring. replace (0 ^ 2 + 0 ^ 2) with 0 by ring. rewrite sqrt_0, sqrt_1. unfold atan2.
  destruct (Rlt_dec 0 0); [lra|]. destruct (Rlt_dec 0 1); [|lra]. rewrite !Rmult_1_r. reflexivity.
Qed.
(** the requested pole itself never gets latitude 90 degrees, unless it is a geographic pole *)
Theorem rotated_pole_refuted : forall lon lat, - PI / 2 < lat < PI / 2 ->
  let '(_, lat', _) := rotated_lonlatr_coords (xyz_from_lonlatr lon lat 1 Rad) lon lat in lat' <> PI / 2.
Proof.
  intros lon lat Hl. unfold rotated_lonlatr_coords. pose proof (rotate_point lon lat lon lat) as Z. pose proof (pole_axis_unit lon lat) as U.
  destruct (pole_rotation lon lat) as [axis angle] eqn:E. simpl in U. set (p := xyz_from_lonlatr lon lat 1 Rad) in *.
  assert (Hc : 0 < cos lat) by (apply cos_gt_0; lra).
  assert (Z1 : vz (rodrigues_rotation p axis angle) < 1).
  { rewrite Z. replace (lon - lon) with 0 by ring. rewrite cos_0. pose proof (sq1 lat). nra. }
  assert (N : dot3 (rodrigues_rotation p axis angle) (rodrigues_rotation p axis angle) = 1).
  { rewrite rotation_preserves_dot by auto. unfold p, dot3, xyz_from_lonlatr, to_rad. simpl. rewrite !Rmult_1_r.
    pose proof (sq1 lon) as S1. pose proof (sq1 lat) as S2. set (c1 := cos lon) in *. set (s1 := sin lon) in *. set (c2 := cos lat) in *. set (s2 := sin lat) in *.
    transitivity ((c1 * c1 + s1 * s1) * c2 * c2 + s2 * s2); [ring|rewrite S1, S2; ring]. }
  clear Z. set (q := rodrigues_rotation p axis angle) in *. clearbody q. clear p. destruct q as [x y z]. unfold dot3 in N. simpl in N, Z1.
  pose proof (xyz_lonlatr_xyz (V x y z) Rad) as X.
  destruct (lonlatr_from_xyz (V x y z) Rad) as [[a b] r] eqn:L. intros ->.
  assert (r = 1). { pose proof (f_equal snd L) as L3. simpl snd in L3. rewrite <- L3. unfold lonlatr_from_xyz. simpl. match goal with |- sqrt ?w = 1 => replace w with 1 by lra end. apply sqrt_1. }
  subst r. unfold xyz_from_lonlatr, to_rad in X. pose proof (f_equal vz X) as X3. simpl in X3. rewrite Rmult_1_r, sin_PI2 in X3. lra.
Qed.
(** in particular a pole on the equator goes to latitude -90 degrees *)
Theorem equatorial_pole_refuted : forall lon,
  let '(_, lat', _) := rotated_lonlatr_coords (xyz_from_lonlatr lon 0 1 Rad) lon 0 in lat' = - (PI / 2).
Proof.
  intros lon. unfold rotated_lonlatr_coords. pose proof (rotate_point lon 0 lon 0) as Z. pose proof (pole_axis_unit lon 0) as U.
  destruct (pole_rotation lon 0) as [axis angle] eqn:E. simpl in U. set (p := xyz_from_lonlatr lon 0 1 Rad) in *.
  assert (Z1 : vz (rodrigues_rotation p axis angle) = - (1)). { rewrite Z. replace (lon - lon) with 0 by ring. rewrite cos_0, sin_0. ring. }
  assert (N : dot3 (rodrigues_rotation p axis angle) (rodrigues_rotation p axis angle) = 1).
  { rewrite rotation_preserves_dot by auto. unfold p, dot3, xyz_from_lonlatr, to_rad. simpl. rewrite !Rmult_1_r, cos_0, sin_0. pose proof (sq1 lon). lra. }
  clear Z. destruct (rodrigues_rotation p axis angle) as [x y z]. unfold dot3 in N. simpl in *. subst z.
  assert (x = 0) by nra. assert (y = 0) by nra. subst. unfold lonlatr_from_xyz, of_rad. simpl vx. simpl vy. simpl vz.
  replace (0 * (0 * 1) + 0 * (0 * 1)) with 0 by ring. rewrite sqrt_0. unfold atan2.
  destruct (Rlt_dec 0 0); [lra|]. destruct (Rlt_dec 0 (- (1))); [lra|]. destruct (Rlt_dec (- (1)) 0); lra.
Qed.
(** The rotated unit vectors are an orthonormal, right-handed triple at every point *)
Lemma normalise_unit : forall a, dot3 a a = 1 -> normalise a = a.
Proof. intros [x y z] H. unfold normalise. rewrite H, sqrt_1, Rinv_1. unfold scale3. simpl. eq3; ring. Qed.
Lemma basis_dots : forall a b c a' b' c' pos,
  dot3 (xyz_vector_from_lonlatr a b c pos) (xyz_vector_from_lonlatr a' b' c' pos) = a * a' + b * b' + c * c'.
Proof.
  intros. unfold xyz_vector_from_lonlatr, dot3. destruct (lonlat_of pos) as [lon lat].
  pose proof (sq1 lon) as S1. pose proof (sq1 lat) as S2. simpl.
  set (c1 := cos lon) in *. set (s1 := sin lon) in *. set (c2 := cos lat) in *. set (s2 := sin lat) in *.
  transitivity (a * a' * (c1 * c1 + s1 * s1) + b * b' * (s2 * s2 * (c1 * c1 + s1 * s1) + c2 * c2) + c * c' * (c2 * c2 * (c1 * c1 + s1 * s1) + s2 * s2)
     + (b * c' + b' * c) * (c2 * s2 - c2 * s2 * (c1 * c1 + s1 * s1))); [ring|rewrite S1, S2; ring].
Qed.
Lemma radial_unit : forall p, p <> V 0 0 0 -> scale3 (sqrt (dot3 p p)) (xyz_vector_from_lonlatr 0 0 1 (XYZ p)) = p.
Proof.
  intros p Hp. pose proof (xyz_lonlatr_xyz p Rad) as E. unfold xyz_vector_from_lonlatr, lonlat_of.
  destruct (lonlatr_from_xyz p Rad) as [[lon lat] r] eqn:L.
  assert (Hr : r = sqrt (dot3 p p)). { unfold lonlatr_from_xyz in L. injection L. intros <- _ _. unfold dot3. f_equal. ring. }
  rewrite <- Hr. rewrite <- E. unfold xyz_from_lonlatr, to_rad, scale3. rewrite !Rmult_1_r. simpl. eq3; ring.
Qed.
Lemma dot_scale : forall a c b, dot3 a (scale3 c b) = c * dot3 a b.
Proof. intros. unfold dot3, scale3. simpl. ring. Qed.
Theorem rotated_vectors_orthonormal : forall p lon lat, p <> V 0 0 0 ->
  let '(e1, e2, e3) := rotated_lonlatr_vectors p lon lat in
  dot3 e1 e1 = 1 /\ dot3 e2 e2 = 1 /\ dot3 e3 e3 = 1 /\ dot3 e1 e2 = 0 /\ dot3 e1 e3 = 0 /\ dot3 e2 e3 = 0 /\
  scale3 (sqrt (dot3 p p)) e3 = p.
Proof.
  intros p lon lat Hp. unfold rotated_lonlatr_vectors. pose proof (pole_axis_unit lon lat) as U.
  destruct (pole_rotation lon lat) as [k t] eqn:E. simpl in U. set (q := rodrigues_rotation p k t).
  assert (Hpos : 0 < dot3 p p).
  { destruct p as [x y z]. unfold dot3. simpl. destruct (Req_dec x 0); [destruct (Req_dec y 0); [destruct (Req_dec z 0); [subst; congruence|]|]|]; nra. }
  set (f1 := xyz_vector_from_lonlatr 1 0 0 (XYZ q)). set (f2 := xyz_vector_from_lonlatr 0 1 0 (XYZ q)). set (f3 := xyz_vector_from_lonlatr 0 0 1 (XYZ p)).
  assert (N1 : dot3 (rodrigues_rotation f1 k (- t)) (rodrigues_rotation f1 k (- t)) = 1) by (rewrite rotation_preserves_dot by auto; unfold f1; rewrite basis_dots; ring).
  assert (N2 : dot3 (rodrigues_rotation f2 k (- t)) (rodrigues_rotation f2 k (- t)) = 1) by (rewrite rotation_preserves_dot by auto; unfold f2; rewrite basis_dots; ring).
  assert (N3 : dot3 f3 f3 = 1) by (unfold f3; rewrite basis_dots; ring).
  rewrite !normalise_unit by auto.
  assert (R3 : scale3 (sqrt (dot3 p p)) f3 = p) by (apply radial_unit; auto).
  assert (Q0 : q <> V 0 0 0). { intros Z. assert (D : dot3 q q = dot3 p p) by (apply rotation_preserves_dot; auto). rewrite Z in D. unfold dot3 at 1 in D. simpl in D. lra. }
  assert (Rq : scale3 (sqrt (dot3 q q)) (xyz_vector_from_lonlatr 0 0 1 (XYZ q)) = q) by (apply radial_unit; auto).
  assert (Sq : 0 < sqrt (dot3 p p)) by (apply sqrt_lt_R0; auto).
  (* the rotated-back radial vector is f3 *)
  assert (DotQ : forall f, dot3 f q = 0 -> dot3 (rodrigues_rotation f k (- t)) f3 = 0).
  { intros f Hf. assert (B : dot3 (rodrigues_rotation f k (- t)) p = 0).
    { rewrite <- (proj1 (rotation_undone k U p t)). fold q. rewrite rotation_preserves_dot by auto. exact Hf. }
    pose proof (f_equal (dot3 (rodrigues_rotation f k (- t))) R3) as W. rewrite dot_scale, B in W. apply Rmult_integral in W. destruct W; lra. }
  assert (DQ : forall a b, dot3 (xyz_vector_from_lonlatr a b 0 (XYZ q)) q = 0).
  { intros a b. pose proof (f_equal (dot3 (xyz_vector_from_lonlatr a b 0 (XYZ q))) Rq) as W. rewrite dot_scale, basis_dots in W. rewrite <- W. ring. }
  repeat split; auto.
  - rewrite rotation_preserves_dot by auto. unfold f1, f2. rewrite basis_dots. ring.
  - apply DotQ, DQ.
  - apply DotQ, DQ.
Qed.

(** ** C53 periodic distance: congruent to the difference, of absolute value at most half the
    length for points of the domain, and the shortest such representative *)
Theorem periodic_distance_congruent : forall x1 x2 b a, exists k : Z, periodic_distance x1 x2 b a = x1 - x2 + IZR k * (b - a).
Proof.
  intros. unfold periodic_distance. destruct (Rlt_dec _ _); [exists (-1)%Z; simpl; lra|]. destruct (Rlt_dec _ _); [exists 1%Z|exists 0%Z]; simpl; lra.
Qed.
Theorem periodic_distance_bound : forall x1 x2 b a, a <= x1 <= b -> a <= x2 <= b -> Rabs (periodic_distance x1 x2 b a) <= (b - a) / 2.
Proof. intros x1 x2 b a H1 H2. unfold periodic_distance. apply Rabs_le. destruct (Rlt_dec _ _); [lra|]. destruct (Rlt_dec _ _); lra. Qed.
Theorem periodic_distance_shortest : forall x1 x2 b a, a <= x1 <= b -> a <= x2 <= b -> a < b -> forall k : Z,
  Rabs (periodic_distance x1 x2 b a) <= Rabs (x1 - x2 + IZR k * (b - a)).
Proof.
  intros x1 x2 b a H1 H2 Hab k. pose proof (periodic_distance_bound x1 x2 b a H1 H2) as B.
  destruct (periodic_distance_congruent x1 x2 b a) as [j E]. set (d := periodic_distance x1 x2 b a) in *.
  replace (x1 - x2 + IZR k * (b - a)) with (d + IZR (k - j) * (b - a)) by (rewrite minus_IZR, E; ring).
  set (m := (k - j)%Z). destruct (Z.eq_dec m 0) as [->|M]. { rewrite Rmult_0_l, Rplus_0_r. lra. }
  set (L := b - a) in *. assert (0 < L) by (unfold L; lra). destruct (Rabs_def2 d (L / 2 + 1)) as [_ _]; [lra|].
  assert (- (L / 2) <= d <= L / 2) by (unfold Rabs in B; destruct (Rcase_abs d); lra).
  destruct (Z_lt_le_dec m 0) as [N|P].
  - assert (IZR m <= -1) by (apply IZR_le; lia). assert (IZR m * L <= - L) by nra. rewrite (Rabs_left1 (d + _)) by lra. lra.
  - assert (1 <= IZR m) by (apply IZR_le; lia). assert (L <= IZR m * L) by nra. rewrite (Rabs_right (d + _)) by lra. lra.
Qed.
(** ... but points outside the domain are not wrapped more than once *)
Theorem periodic_distance_outside_refuted : exists x1 x2 b a, a < b /\ a <= x2 <= b /\ Rabs (periodic_distance x1 x2 b a) > (b - a) / 2.
Proof.
  exists 2, 0, 1, 0. repeat split; try lra. unfold periodic_distance. destruct (Rlt_dec _ _); [|lra]. rewrite Rabs_right; lra.
Qed.

(** ** Great-circle distance *)
Definition unit_vector (lon lat : R) : v3 := xyz_from_lonlatr lon lat 1 Rad.
Lemma arc_dot : forall lon1 lat1 lon2 lat2, cos (lon1 - lon2) * cos lat1 * cos lat2 + sin lat1 * sin lat2 = dot3 (unit_vector lon1 lat1) (unit_vector lon2 lat2).
Proof. intros. unfold unit_vector, xyz_from_lonlatr, to_rad, dot3. simpl. rewrite !Rmult_1_r, cos_minus. ring. Qed.
Lemma unit_unit : forall lon lat, dot3 (unit_vector lon lat) (unit_vector lon lat) = 1.
Proof. intros. rewrite <- arc_dot. replace (lon - lon) with 0 by ring. rewrite cos_0. pose proof (sq1 lat). lra. Qed.
Lemma cauchy : forall a b, dot3 a a = 1 -> dot3 b b = 1 -> -1 <= dot3 a b <= 1.
Proof.
  intros [a1 a2 a3] [b1 b2 b3] A B. unfold dot3 in *. simpl in *.
  pose proof (Rle_0_sqr (a1 - b1)). pose proof (Rle_0_sqr (a2 - b2)). pose proof (Rle_0_sqr (a3 - b3)).
  pose proof (Rle_0_sqr (a1 + b1)). pose proof (Rle_0_sqr (a2 + b2)). pose proof (Rle_0_sqr (a3 + b3)). unfold Rsqr in *. lra.
Qed.
(** the angle between the two points seen from the centre: in [0, pi], with the right cosine *)
Theorem great_arc_is_angle : forall lon1 lat1 lon2 lat2, let a := great_arc_angle lon1 lat1 lon2 lat2 Rad in
  0 <= a <= PI /\ cos a = dot3 (unit_vector lon1 lat1) (unit_vector lon2 lat2).
Proof.
  intros. unfold a, great_arc_angle, arc, to_rad, of_rad. rewrite !Rmult_1_r, arc_dot. split; [apply acos_bound|].
  apply cos_acos. apply cauchy; apply unit_unit.
Qed.
(** symmetric, and zero exactly for equal points *)
Theorem great_arc_metric : forall lon1 lat1 lon2 lat2 u,
  great_arc_angle lon1 lat1 lon2 lat2 u = great_arc_angle lon2 lat2 lon1 lat1 u /\
  (great_arc_angle lon1 lat1 lon2 lat2 u = 0 <-> unit_vector (to_rad u lon1) (to_rad u lat1) = unit_vector (to_rad u lon2) (to_rad u lat2)).
Proof.
  intros. unfold great_arc_angle, arc. rewrite !arc_dot.
  set (p := unit_vector (to_rad u lon1) (to_rad u lat1)). set (q := unit_vector (to_rad u lon2) (to_rad u lat2)).
  split. { f_equal. f_equal. unfold dot3. ring. }
  assert (Z : forall x, of_rad u x = 0 <-> x = 0).
  { intros x. pose proof PI_RGT_0. destruct u; simpl; split; intros H1; subst; try lra. apply Rmult_integral in H1. destruct H1 as [|H1]; auto.
    exfalso. unfold Rdiv in H1. apply Rmult_integral in H1. destruct H1 as [|H1]; [lra|]. apply Rinv_neq_0_compat in H1; lra. }
  rewrite Z. pose proof (unit_unit (to_rad u lon1) (to_rad u lat1)) as U1. fold p in U1. pose proof (unit_unit (to_rad u lon2) (to_rad u lat2)) as U2. fold q in U2.
  pose proof (cauchy p q U1 U2) as C. split.
  - intros H. assert (D : dot3 p q = 1) by (rewrite <- (cos_acos _ C), H, cos_0; reflexivity).
    destruct p as [a1 a2 a3], q as [b1 b2 b3]. unfold dot3 in *. simpl in *.
    assert ((a1 - b1) ^ 2 + (a2 - b2) ^ 2 + (a3 - b3) ^ 2 = 0) by lra.
    pose proof (Rle_0_sqr (a1 - b1)). pose proof (Rle_0_sqr (a2 - b2)). pose proof (Rle_0_sqr (a3 - b3)). unfold Rsqr in *.
    eq3; apply Rminus_diag_uniq, Rsqr_0_uniq; unfold Rsqr; lra.
  - intros ->. rewrite U2. apply acos_1.
Qed.
(** numpy arrays: in radians, nothing is changed and the value is right *)
Theorem great_arc_numpy_partial : forall h a b c d,
  great_arc_angle_np h a b c d Rad = (h, great_arc_angle (h a) (h b) (h c) (h d) Rad).
Proof. intros. unfold great_arc_angle_np, great_arc_angle, to_rad. rewrite !Rmult_1_r. reflexivity. Qed.
(** in degrees, distinct arrays give the right value, but the caller's arrays are overwritten
    (in radians now), so that every array with a nonzero entry changes ... *)
Theorem great_arc_numpy_degrees_refuted : forall h a b c d, NoDup (a :: b :: c :: d :: nil) ->
  snd (great_arc_angle_np h a b c d Deg) = great_arc_angle (h a) (h b) (h c) (h d) Deg /\
  (h a <> 0 -> fst (great_arc_angle_np h a b c d Deg) a <> h a).
Proof.
  intros h a b c d N. assert (a <> b /\ a <> c /\ a <> d /\ b <> c /\ b <> d /\ c <> d) as [A1 [A2 [A3 [B1 [B2 C1]]]]].
  { inversion N as [|? ? H1 N1]; subst. inversion N1 as [|? ? H2 N2]; subst. inversion N2 as [|? ? H3 N3]; subst. simpl in *. repeat split; intros E; subst; tauto. }
  unfold great_arc_angle_np, great_arc_angle, scale_at. simpl.
  assert (F : forall x y, x <> y -> Nat.eqb x y = false) by (intros; apply PeanoNat.Nat.eqb_neq; auto).
  rewrite !PeanoNat.Nat.eqb_refl, ?(F a b), ?(F a c), ?(F a d), ?(F b a), ?(F b c), ?(F b d), ?(F c a), ?(F c b), ?(F c d), ?(F d a), ?(F d b), ?(F d c) by auto.
  split; [reflexivity|]. intros H E. assert (PI / 180 = 1). { apply (Rmult_eq_reg_l (h a)); lra. }
  pose proof PI_4. lra.
Qed.
(** ... and passing one array for both longitudes converts it twice *)
Theorem great_arc_numpy_alias_refuted : exists h lon lat1 lat2, NoDup (lon :: lat1 :: lat2 :: nil) /\
  fst (great_arc_angle_np h lon lat1 lon lat2 Deg) lon <> h lon * (PI / 180).
Proof.
  exists (fun _ => 90), 0%nat, 1%nat, 2%nat. split.
  - repeat constructor; simpl; lia.
  - unfold great_arc_angle_np, scale_at. simpl. pose proof PI_RGT_0. pose proof PI_4. intros E. 
    assert (90 * (PI / 180) * (PI / 180) = 90 * (PI / 180)) by exact E. nra.
Qed.

Print Assumptions xyz_lonlatr_xyz.
Print Assumptions lonlatr_xyz_lonlatr.
Print Assumptions components_round_trip.
Print Assumptions position_is_radial.
Print Assumptions rotation_preserves_dot.
Print Assumptions rotation_compose.
Print Assumptions pole_rotation_moves_pole.
Print Assumptions rotated_pole_refuted.
Print Assumptions rotated_vectors_orthonormal.
Print Assumptions periodic_distance_shortest.
Print Assumptions great_arc_is_angle.
Print Assumptions great_arc_metric.
Print Assumptions great_arc_numpy_degrees_refuted.
