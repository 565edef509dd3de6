(** The flat latitude-longitude mesh. *)
From Coq Require Import Reals List Lra Lia ZArith.
From Verif Require Import Base Coords CoordsProps Meshes LatLonMesh.
Import ListNotations.
Open Scope R_scope.

(** ** Specification *)
(** the largest distance between two numbers of a list *)
Definition is_spread (l : list R) (d : R) : Prop :=
  (forall x y, In x l -> In y l -> x - y <= d) /\ exists x y, In x l /\ In y l /\ x - y = d.
(** the cell lies on one side of a plane through the axis (it does not touch the axis) *)
Definition beside_axis (nodes : list v3) : Prop :=
  exists a b, forall p, In p nodes -> 0 < a * vx p + b * vy p.

(** ** The maximum the kernel computes *)
Lemma fold_max (l : list (R * R)) D : forall md, md <= D -> (forall p, In p l -> Rabs (fst p - snd p) <= D) ->
  let r := fold_left (fun md p => let diff := fst p - snd p in if Rlt_dec md (Rabs diff) then diff else md) l md in
  r <= D /\ (md = D \/ (exists p, In p l /\ fst p - snd p = D) -> r = D).
Proof.
  induction l as [|p l IH]; intros md Hmd Hl; cbn [fold_left].
  - split; [exact Hmd | intros [E | (q & [] & _)]; exact E].
  - cbv zeta in *. pose proof (Hl p (or_introl eq_refl)) as Hp.
    assert (Hl' : forall q, In q l -> Rabs (fst q - snd q) <= D) by (intros q Hq; apply Hl; right; exact Hq).
    destruct (Rlt_dec md (Rabs (fst p - snd p))) as [L | L].
    + destruct (IH (fst p - snd p) ltac:(pose proof (Rle_abs (fst p - snd p)); lra) Hl') as [I1 I2].
      split; [exact I1|]. intros [E | (q & [<- | Hq] & E)]; [lra | apply I2; left; exact E | apply I2; right; eauto].
    + destruct (IH md Hmd Hl') as [I1 I2]. split; [exact I1|]. intros [E | (q & [<- | Hq] & E)]; apply I2.
      * left. exact E.
      * left. pose proof (Rle_abs (fst p - snd p)). lra.
      * right. eauto.
Qed.
Lemma spread_exists l : l <> [] -> exists d, is_spread l d.
Proof.
  assert (M : forall l : list R, l <> [] -> exists m, In m l /\ forall x, In x l -> x <= m).
  { clear. induction l as [|a l IH]; [congruence|]. intros _. destruct l as [|b l].
    - exists a. split; [left; reflexivity | intros x [<- | []]; lra].
    - destruct (IH ltac:(discriminate)) as (m & Hm & H). destruct (Rle_lt_dec a m) as [L | L].
      + exists m. split; [right; exact Hm | intros x [<- | Hx]; [exact L | apply H, Hx]].
      + exists a. split; [left; reflexivity | intros x [<- | Hx]; [lra | specialize (H x Hx); lra]]. }
  intros Hl. destruct (M l Hl) as (m & Hm & Um).
  destruct (M (map Ropp l)) as (n & Hn & Un); [destruct l; [congruence | discriminate]|].
  apply in_map_iff in Hn as (w & <- & Hw). exists (m - w). split.
  - intros x y Hx Hy. specialize (Um x Hx). specialize (Un (- y) (in_map Ropp _ _ Hy)). lra.
  - exists m, w. auto.
Qed.
(** In spite of storing the signed difference where it compares with the absolute one, the kernel
    finds the spread of the longitudes of the cell. *)
Theorem splat_finds_spread : forall lon, lon <> [] -> is_spread lon (splat_max_diff lon).
Proof.
  intros lon Hl. destruct (spread_exists lon Hl) as (d & Hd). enough (splat_max_diff lon = d) as -> by exact Hd.
  destruct Hd as (U & x & y & Hx & Hy & E).
  assert (D0 : 0 <= d) by (specialize (U x x Hx Hx); lra).
  destruct (fold_max (list_prod lon lon) d 0 D0) as [_ H].
  - intros [u w] Huw. apply in_prod_iff in Huw as [Hu Hw]. cbn [fst snd]. apply Rabs_le.
    pose proof (U u w Hu Hw). pose proof (U w u Hw Hu). lra.
  - apply H. right. exists (x, y). split; [apply in_prod_iff; auto | exact E].
Qed.

(** ** Branches *)
Lemma turn_zero d n : Rabs d <= PI -> Rabs (d + 2 * PI * IZR n) < PI -> n = 0%Z.
Proof.
  intros H1 H2. pose proof PI_RGT_0. apply Rabs_def2 in H2. 
  assert (-PI <= d <= PI) by (split; [pose proof (Rle_abs (- d)); rewrite Rabs_Ropp in *; lra | pose proof (Rle_abs d); lra]).
  assert (-1 < IZR n < 1) by (split; nra). 
  assert (-1 < n < 1)%Z by (split; apply lt_IZR; [replace (IZR (-1)) with (-1) by reflexivity|]; lra). lia.
Qed.
Lemma turn_one d n : PI < d -> d <= 2 * PI -> Rabs (d + 2 * PI * IZR n) < PI -> n = (-1)%Z.
Proof.
  intros H1 H2 H3. pose proof PI_RGT_0. apply Rabs_def2 in H3.
  assert (-2 < IZR n < 0) by (split; nra).
  assert (-2 < n < 0)%Z by (split; apply lt_IZR; lra). lia.
Qed.
Definition unwrap (k : R -> Z) (x : R) : R := x + 2 * PI * IZR (k x).
Lemma splat_close lon (k : R -> Z) : (forall x, In x lon -> - PI < x <= PI) ->
  (forall x y, In x lon -> In y lon -> Rabs (unwrap k x - unwrap k y) < PI) ->
  forall x y, In x (splat lon) -> In y (splat lon) -> Rabs (x - y) < PI.
Proof.
  intros Hr Hk. pose proof PI_RGT_0 as HPI.
  assert (D : forall x y, In x lon -> In y lon -> Rabs ((x - y) + 2 * PI * IZR (k x - k y)) < PI).
  { intros x y Hx Hy. specialize (Hk x y Hx Hy). unfold unwrap in Hk. rewrite minus_IZR.
    replace (x - y + 2 * PI * (IZR (k x) - IZR (k y))) with (x + 2 * PI * IZR (k x) - (y + 2 * PI * IZR (k y))) by ring. exact Hk. }
  (* numbers at most pi apart lie in the same turn, and are less than pi apart *)
  assert (S : forall x y, In x lon -> In y lon -> Rabs (x - y) <= PI -> k x = k y /\ Rabs (x - y) < PI).
  { intros x y Hx Hy L. pose proof (D x y Hx Hy) as H. pose proof (turn_zero _ _ L H) as E. split; [lia|].
    rewrite E in H. replace (x - y + 2 * PI * 0) with (x - y) in H by ring. exact H. }
  unfold splat. destruct (Rlt_dec PI (splat_max_diff lon)) as [L | L].
  - assert (Hl : lon <> []). { intros ->. unfold splat_max_diff in L. cbn in L. lra. }
    destruct (splat_finds_spread lon Hl) as (_ & p & q & Hp & Hq & E). rewrite <- E in L. clear E.
    pose proof (Hr p Hp). pose proof (Hr q Hq).
    assert (Kpq : (k p - k q = -1)%Z) by (apply (turn_one (p - q)); [lra | lra | apply D; assumption]).
    (* every point is on the turn of p or of q, by its sign *)
    assert (T : forall x, In x lon -> k x = if Rlt_dec x 0 then k q else k p).
    { intros x Hx. pose proof (Hr x Hx). destruct (Rlt_dec x 0); apply S; try assumption; apply Rabs_le; lra. }
    intros x y Hx Hy. apply in_map_iff in Hx as (u & <- & Hu), Hy as (w & <- & Hw).
    pose proof (D u w Hu Hw) as H'. rewrite (T u Hu), (T w Hw) in H'.
    destruct (Rlt_dec u 0), (Rlt_dec w 0).
    + replace (u + 2 * PI - (w + 2 * PI)) with (u - w + 2 * PI * IZR (k q - k q)) by (rewrite Z.sub_diag; cbn; ring). exact H'.
    + replace (k q - k p)%Z with 1%Z in H' by lia. replace (u + 2 * PI - w) with (u - w + 2 * PI * IZR 1) by ring. exact H'.
    + rewrite Kpq in H'. replace (u - (w + 2 * PI)) with (u - w + 2 * PI * IZR (-1)) by (cbn; ring). exact H'.
    + replace (u - w) with (u - w + 2 * PI * IZR (k p - k p)) by (rewrite Z.sub_diag; cbn; ring). exact H'.
  - intros x y Hx Hy. apply S; [assumption..|].
    assert (Hl : lon <> []) by (intros ->; contradiction).
    destruct (splat_finds_spread lon Hl) as (U & _). pose proof (U x y Hx Hy). pose proof (U y x Hy Hx). apply Rabs_le. lra.
Qed.
Lemma splat_shape lon : (forall x, In x lon -> - PI < x <= PI) ->
  length (splat lon) = length lon /\ 
  (forall i x, nth_error lon i = Some x -> exists y, nth_error (splat lon) i = Some y /\ (y = x \/ y = x + 2 * PI) /\ - PI < y < 2 * PI).
Proof.
  intros H. pose proof PI_RGT_0. unfold splat. destruct (Rlt_dec PI (splat_max_diff lon)).
  - split; [apply map_length|]. intros i x Hi. rewrite nth_error_map, Hi. cbn [option_map].
    pose proof (H x (nth_error_In _ _ Hi)). destruct (Rlt_dec x 0); eexists; (split; [reflexivity|]); (split; [auto | lra]).
  - split; [reflexivity|]. intros i x Hi. exists x. pose proof (H x (nth_error_In _ _ Hi)). split; [exact Hi|]. split; [auto | lra].
Qed.

Lemma node_polar p : vnorm p <> 0 ->
  vnorm p * cos (node_lon p) * cos (node_lat p) = vx p /\ vnorm p * sin (node_lon p) * cos (node_lat p) = vy p /\
  vnorm p * sin (node_lat p) = vz p.
Proof.
  destruct p as [x y z]. unfold node_lon, node_lat, vnorm. cbn [vx vy vz]. set (s := sqrt (x ^ 2 + y ^ 2 + z ^ 2)). intros Hs.
  assert (Ss : s * s = x ^ 2 + y ^ 2 + z ^ 2) by (apply sqrt_sqrt; nra).
  assert (P0 : 0 < s) by (assert (0 <= s) by apply sqrt_pos; lra).
  assert (Q : (z / s) * (z / s) <= 1).
  { replace (z / s * (z / s)) with (z * z / (s * s)) by (field; lra). rewrite Ss.
    apply (Rmult_le_reg_r (x ^ 2 + y ^ 2 + z ^ 2)); [nra|]. unfold Rdiv. rewrite Rmult_assoc, Rinv_l by nra. nra. }
  assert (B : -1 <= z / s <= 1) by (split; nra).
  destruct (atan2_polar x y) as [C S].
  assert (L : s * cos (asin (z / s)) = sqrt (x ^ 2 + y ^ 2)).
  { rewrite cos_asin by exact B. symmetry. apply sqrt_lem_1; [nra | apply Rmult_le_pos; [lra | apply sqrt_pos]|].
    unfold Rsqr. set (w := 1 - z / s * (z / s)). replace (s * sqrt w * (s * sqrt w)) with (s * s * (sqrt w * sqrt w)) by ring.
    rewrite sqrt_sqrt by (unfold w; lra). unfold w. replace (s * s * (1 - z / s * (z / s))) with (s * s - z * z) by (field; lra). rewrite Ss. ring. }
  rewrite sin_asin by exact B. split; [|split].
  - transitivity (sqrt (x ^ 2 + y ^ 2) * cos (atan2 y x)); [rewrite <- L; ring | exact C].
  - transitivity (sqrt (x ^ 2 + y ^ 2) * sin (atan2 y x)); [rewrite <- L; ring | exact S].
  - field. lra.
Qed.
Lemma min_radius_spec cells : concat cells <> [] ->
  (forall p, In p (concat cells) -> min_radius cells <= vnorm p) /\ exists p, In p (concat cells) /\ vnorm p = min_radius cells.
Proof.
  unfold min_radius. destruct (concat cells) as [|p ps]; [congruence|]. intros _. cbn [map].
  assert (G : forall l r, fold_left Rmin l r <= r /\ (forall x, In x l -> fold_left Rmin l r <= x) /\ (In (fold_left Rmin l r) l \/ fold_left Rmin l r = r)).
  { induction l as [|a l IH]; intros r; cbn [fold_left]; [split; [lra|]; split; [contradiction | auto]|].
    destruct (IH (Rmin r a)) as (I1 & I2 & I3). pose proof (Rmin_l r a). pose proof (Rmin_r r a).
    split; [lra|]. split; [intros x [<- | Hx]; [lra | apply I2, Hx]|].
    destruct I3 as [I3 | I3]; [left; right; exact I3|]. rewrite I3. unfold Rmin. destruct (Rle_dec r a); [auto | left; left; reflexivity]. }
  destruct (G (map vnorm ps) (vnorm p)) as (G1 & G2 & G3). split.
  - intros q [<- | Hq]; [exact G1 | apply G2, in_map, Hq].
  - destruct G3 as [G3 | G3]; [apply in_map_iff in G3 as (q & E & Hq); exists q; split; [right; exact Hq | exact E]|].
    exists p. split; [left; reflexivity | symmetry; exact G3].
Qed.

(** ** The theorems *)

(** Node by node the flat mesh describes the points of the sphere mesh it was made from: its
    longitude, latitude and height above the lowest node give back the node's position; longitudes
    lie between -pi and 2 pi, latitudes between the poles, and the lowest node has height zero. *)
Theorem flat_latlon_same_points : forall cells, concat cells <> [] -> (forall p, In p (concat cells) -> vnorm p <> 0) ->
  length (flat_latlon cells) = length cells /\
  forall m nodes, nth_error cells m = Some nodes -> exists flat, nth_error (flat_latlon cells) m = Some flat /\
    length flat = length nodes /\
    forall i p, nth_error nodes i = Some p -> exists lon lat height, nth_error flat i = Some (lon, lat, height) /\
      xyz_from_lonlatr lon lat (min_radius cells + height) Rad = p /\
      - PI < lon < 2 * PI /\ - (PI / 2) <= lat <= PI / 2 /\ 0 <= height /\
      min_radius cells + height = vnorm p.
Proof.
  intros cells Hne Hnz. unfold flat_latlon. split; [apply map_length|]. intros m nodes Hm.
  rewrite nth_error_map, Hm. eexists. split; [reflexivity|].
  assert (R : forall x, In x (map node_lon nodes) -> - PI < x <= PI).
  { intros x (p & <- & _)%in_map_iff. apply atan2_range. }
  destruct (splat_shape (map node_lon nodes) R) as [SL SN]. unfold flat_cell. rewrite map_length in *. split.
  { rewrite combine_length, SL. apply Nat.min_id. }
  intros i p Hi.
  assert (Hp : In p (concat cells)) by (apply in_concat; exists nodes; split; [eapply nth_error_In; eauto | eapply nth_error_In; eauto]).
  destruct (SN i (node_lon p)) as (lon & E & Hy & Hrng); [rewrite nth_error_map, Hi; reflexivity|].
  assert (Hc : nth_error (combine (splat (map node_lon nodes)) nodes) i = Some (lon, p)).
  { revert E Hi. generalize (splat (map node_lon nodes)). clear. revert nodes. induction i as [|i IH]; intros [|n nodes] [|l ls]; cbn; try discriminate.
    - congruence.
    - apply IH. }
  exists lon, (node_lat p), (node_height (min_radius cells) p). rewrite nth_error_map, Hc. cbn [option_map fst snd].
  split; [reflexivity|]. unfold node_height. replace (min_radius cells + (vnorm p - min_radius cells)) with (vnorm p) by ring.
  destruct (node_polar p (Hnz p Hp)) as (X & Y & Z).
  assert (CS : cos lon = cos (node_lon p) /\ sin lon = sin (node_lon p)).
  { destruct Hy as [-> | ->]; [auto|]. split; [rewrite <- (cos_period (node_lon p) 1) | rewrite <- (sin_period (node_lon p) 1)]; f_equal; cbn; ring. }
  destruct CS as [Cc Cs]. split.
  { unfold xyz_from_lonlatr, to_rad. rewrite !Rmult_1_r, Cc, Cs, X, Y, Z. destruct p; reflexivity. }
  split; [exact Hrng|]. split; [apply asin_bound|]. split; [|reflexivity].
  pose proof (proj1 (min_radius_spec cells Hne) p Hp). lra.
Qed.
Theorem flat_latlon_lowest : forall cells, concat cells <> [] ->
  exists p, In p (concat cells) /\ vnorm p = min_radius cells /\ node_height (min_radius cells) p = 0.
Proof. intros cells H. destruct (min_radius_spec cells H) as (_ & p & Hp & E). exists p. unfold node_height. rewrite E. split; [exact Hp|]. split; [reflexivity | ring]. Qed.

(** A cell that lies on one side of the axis is not torn apart by the branch cut: on the flat
    mesh the longitudes of its nodes differ by less than half a turn. *)
Theorem flat_latlon_not_torn_partial : forall radius nodes, beside_axis nodes ->
  forall q q', In q (flat_cell radius nodes) -> In q' (flat_cell radius nodes) ->
    Rabs (fst (fst q) - fst (fst q')) < PI.
Proof.
  intros radius nodes (a & b & Hab) q q' Hq Hq'.
  assert (K : forall q, In q (flat_cell radius nodes) -> In (fst (fst q)) (splat (map node_lon nodes))).
  { clear. intros q H. unfold flat_cell in H. apply in_map_iff in H as ([l p] & <- & H). cbn [fst snd]. eapply in_combine_l, H. }
  apply K in Hq, Hq'. clear K.
  set (al := atan2 b a). destruct (atan2_polar a b) as [Ca Sa]. fold al in Ca, Sa. set (ra := sqrt (a ^ 2 + b ^ 2)) in *.
  pose proof (atan2_range b a) as Ra. fold al in Ra. pose proof PI_RGT_0 as HPI.
  set (k := fun x => if Rlt_dec (x - al) (- PI) then 1%Z else if Rlt_dec PI (x - al) then (-1)%Z else 0%Z).
  assert (Rn : forall x, In x (map node_lon nodes) -> - PI < x <= PI).
  { intros x (p & <- & _)%in_map_iff. apply atan2_range. }
  apply (splat_close (map node_lon nodes) k Rn); [|assumption..].
  assert (N : forall x, In x (map node_lon nodes) -> - (PI / 2) < unwrap k x - al < PI / 2).
  { intros x Hx. pose proof (Rn x Hx) as Rx. apply in_map_iff in Hx as (p & <- & Hp). specialize (Hab p Hp).
    destruct (atan2_polar (vx p) (vy p)) as [Cp Sp]. fold (node_lon p) in Cp, Sp. set (rp := sqrt (vx p ^ 2 + vy p ^ 2)) in *.
    assert (P0 : 0 < cos (node_lon p - al)).
    { rewrite cos_minus. assert (0 <= ra) by apply sqrt_pos. assert (0 <= rp) by apply sqrt_pos.
      assert (E : a * vx p + b * vy p = (ra * rp) * (cos (node_lon p) * cos al + sin (node_lon p) * sin al))
        by (rewrite <- Ca, <- Sa, <- Cp, <- Sp; ring).
      rewrite E in Hab. set (w := cos (node_lon p) * cos al + sin (node_lon p) * sin al) in *. assert (0 <= ra * rp) by (apply Rmult_le_pos; assumption).
      destruct (Rlt_le_dec 0 w) as [L | L]; [exact L|]. exfalso. nra. }
    set (d := unwrap k (node_lon p) - al).
    assert (Cd : 0 < cos d).
    { unfold d, unwrap. replace (node_lon p + 2 * PI * IZR (k (node_lon p)) - al) with (node_lon p - al + 2 * PI * IZR (k (node_lon p))) by ring.
      rewrite cos_plus. unfold k. repeat destruct (Rlt_dec _ _).
      - replace (2 * PI * 1) with (2 * PI) by ring. rewrite cos_2PI, sin_2PI. lra.
      - replace (2 * PI * -1) with (- (2 * PI)) by ring. rewrite cos_neg, sin_neg, cos_2PI, sin_2PI. lra.
      - replace (2 * PI * 0) with 0 by ring. rewrite cos_0, sin_0. lra. }
    assert (Rd : - PI <= d <= PI).
    { unfold d, unwrap, k. repeat destruct (Rlt_dec _ _); lra. }
    clearbody d. split; apply Rnot_le_lt; intros L.
    - assert (cos d <= 0); [|lra]. rewrite <- cos_neg. apply cos_le_0; lra.
    - assert (cos d <= 0); [|lra]. apply cos_le_0; lra. }
  intros x y Hx Hy. pose proof (N x Hx). pose proof (N y Hy). apply Rabs_def1; lra.
Qed.

(** What is missing: a cell around a pole.  Its longitudes go all the way round, and after the
    correction two of its nodes are still further apart than half a turn. *)
Theorem flat_latlon_pole_refuted : exists nodes, length nodes = 3%nat /\ (forall p, In p nodes -> vnorm p = 1) /\
  exists q q', In q (flat_cell 1 nodes) /\ In q' (flat_cell 1 nodes) /\ PI < Rabs (fst (fst q) - fst (fst q')).
Proof.
  pose proof PI_RGT_0 as HPI.
  set (P l := xyz_from_lonlatr l (PI / 4) 1 Rad).
  assert (HL : forall l, - PI < l <= PI -> node_lon (P l) = l /\ vnorm (P l) = 1).
  { intros l Hl. pose proof (lonlatr_xyz_lonlatr l (PI / 4) 1 Rad ltac:(lra) ltac:(unfold to_rad; lra) ltac:(unfold to_rad; lra)) as E.
    fold (P l) in E. unfold lonlatr_from_xyz, of_rad in E. injection E as E1 _ E3. unfold node_lon, vnorm. split; [rewrite Rmult_1_r in E1; exact E1 | exact E3]. }
  exists [P (- (2 * PI / 3)); P 0; P (2 * PI / 3)].
  assert (Hs : splat (map node_lon [P (- (2 * PI / 3)); P 0; P (2 * PI / 3)]) = [- (2 * PI / 3) + 2 * PI; 0; 2 * PI / 3]).
  { cbn [map]. rewrite !(fun l H => proj1 (HL l H)) by lra. unfold splat.
    set (l := [_; _; _]). destruct (Rlt_dec PI (splat_max_diff l)) as [L | L].
    - cbn [map l]. destruct (Rlt_dec (- (2 * PI / 3)) 0); [|lra]. destruct (Rlt_dec 0 0); [lra|]. destruct (Rlt_dec (2 * PI / 3) 0); [lra|]. reflexivity.
    - exfalso. apply L. destruct (splat_finds_spread l ltac:(discriminate)) as [U _].
      specialize (U (2 * PI / 3) (- (2 * PI / 3)) ltac:(cbn; auto) ltac:(cbn; auto)). lra. }
  split; [reflexivity|]. split.
  { intros p [<- | [<- | [<- | []]]]; apply HL; lra. }
  unfold flat_cell. rewrite Hs. cbn [combine map fst snd].
  do 2 eexists. split; [left; reflexivity|]. split; [right; left; reflexivity|]. cbn [fst]. rewrite Rabs_right; lra.
Qed.
(** a cell across the branch cut meets the hypotheses *)
Theorem flat_latlon_example : let nodes := [V (-1) 1 0; V (-1) (-1) 0; V (-1) 0 1] in
  beside_axis nodes /\ (forall p, In p nodes -> vnorm p <> 0) /\
  map (fun q => fst (fst q)) (flat_cell 1 nodes) = [3 * (PI / 4); 5 * (PI / 4); PI].
Proof.
  cbv zeta. pose proof PI_RGT_0 as HPI. split; [|split].
  - exists (-1), 0. intros p [<- | [<- | [<- | []]]]; cbn [vx vy]; lra.
  - intros p [<- | [<- | [<- | []]]]; unfold vnorm; cbn [vx vy vz]; apply Rgt_not_eq, sqrt_lt_R0; lra.
  - assert (E : map node_lon [V (-1) 1 0; V (-1) (-1) 0; V (-1) 0 1] = [3 * (PI / 4); - (3 * (PI / 4)); PI]).
    { cbn [map]. unfold node_lon, atan2. cbn [vx vy].
      destruct (Rlt_dec 0 (-1)); [lra|]. destruct (Rlt_dec (-1) 0); [|lra].
      destruct (Rle_dec 0 1); [|lra]. destruct (Rle_dec 0 (-1)); [lra|]. destruct (Rle_dec 0 0); [|lra].
      replace (1 / -1) with (Ropp 1) by field. replace (-1 / -1) with 1 by field. replace (0 / -1) with 0 by field.
      rewrite atan_opp, atan_1, atan_0. f_equal; [field|]. f_equal; [field|]. f_equal. ring. }
    unfold flat_cell. rewrite E. set (l := [_; _; _]).
    assert (Hs : splat l = [3 * (PI / 4); 5 * (PI / 4); PI]).
    { unfold splat. destruct (Rlt_dec PI (splat_max_diff l)) as [L | L].
      - unfold l. cbn [map]. destruct (Rlt_dec (3 * (PI / 4)) 0); [lra|]. destruct (Rlt_dec (- (3 * (PI / 4))) 0); [|lra]. destruct (Rlt_dec PI 0); [lra|].
        f_equal. f_equal. lra.
      - exfalso. apply L. destruct (splat_finds_spread l ltac:(discriminate)) as [U _].
        specialize (U (3 * (PI / 4)) (- (3 * (PI / 4))) ltac:(cbn; auto) ltac:(cbn; auto)). lra. }
    rewrite Hs. reflexivity.
Qed.
