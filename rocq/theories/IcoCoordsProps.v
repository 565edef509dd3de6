(** The coordinates of the icosahedral sphere mesh, for every refinement. *)
From Verif Require Import Base Meshes MeshesProps IcosahedronProps.
From Coq Require Import ZArith Lia Reals Lra.
Open Scope R_scope.

(** ** Specification: the point of a panel with corners A, B, C that lies j rows from the side
    AB and k columns from the side AC, on a lattice with N subdivisions *)
Definition lattice (N : Z) (A B C : pt3) (j k : Z) : pt3 :=
  padd (pscal (IZR (N - j - k) / IZR N) A) (padd (pscal (IZR k / IZR N) B) (pscal (IZR j / IZR N) C)).

Lemma pt_ext p q : px p = px q -> py p = py q -> pz p = pz q -> p = q.
Proof. destruct p, q. cbn. intros -> -> ->. reflexivity. Qed.

(** ** Exact arithmetic with the golden ratio *)
Lemma phi_sq : phi * phi = phi + 1.
Proof.
  unfold phi. pose proof (sqrt_sqrt 5 ltac:(lra)) as H.
  replace ((1 + sqrt 5) / 2 * ((1 + sqrt 5) / 2)) with ((1 + 2 * sqrt 5 + sqrt 5 * sqrt 5) / 4) by field.
  rewrite H. field.
Qed.
Lemma phi_pos : 1 < phi.
Proof.
  unfold phi. assert (1 < sqrt 5); [|lra]. rewrite <- sqrt_1 at 1. apply sqrt_lt_1; lra.
Qed.
Definition zphi (x : Z * Z) : R := IZR (fst x) + IZR (snd x) * phi.
Definition zbase : list ((Z * Z) * (Z * Z) * (Z * Z)) :=
  [((-1,0),(0,1),(0,0)); ((1,0),(0,1),(0,0)); ((-1,0),(0,-1),(0,0)); ((1,0),(0,-1),(0,0));
   ((0,0),(-1,0),(0,1)); ((0,0),(1,0),(0,1)); ((0,0),(-1,0),(0,-1)); ((0,0),(1,0),(0,-1));
   ((0,1),(0,0),(-1,0)); ((0,1),(0,0),(1,0)); ((0,-1),(0,0),(-1,0)); ((0,-1),(0,0),(1,0))]%Z.
Definition zb (v : Z) := nth (Z.to_nat v) zbase ((0,0),(0,0),(0,0))%Z.
Definition zmul (x y : Z * Z) : Z * Z :=
  (fst x * fst y + snd x * snd y, fst x * snd y + snd x * fst y + snd x * snd y)%Z.
Definition zadd (x y : Z * Z) : Z * Z := (fst x + fst y, snd x + snd y)%Z.
Definition zdot (u v : Z) : Z * Z :=
  let '(a, b, c) := zb u in let '(a', b', c') := zb v in zadd (zmul a a') (zadd (zmul b b') (zmul c c')).
Lemma zmul_ok x y : zphi (zmul x y) = zphi x * zphi y.
Proof.
  unfold zphi, zmul. cbn [fst snd]. rewrite !plus_IZR, !mult_IZR.
  replace ((IZR (fst x) + IZR (snd x) * phi) * (IZR (fst y) + IZR (snd y) * phi)) with
    (IZR (fst x) * IZR (fst y) + (IZR (fst x) * IZR (snd y) + IZR (snd x) * IZR (fst y)) * phi + IZR (snd x) * IZR (snd y) * (phi * phi)) by ring.
  rewrite phi_sq. ring.
Qed.
Lemma zadd_ok x y : zphi (zadd x y) = zphi x + zphi y.
Proof. unfold zphi, zadd. cbn [fst snd]. rewrite !plus_IZR. ring. Qed.
Ltac tonat := repeat match goal with |- context [Z.to_nat ?z] =>
  let v := eval compute in (Z.to_nat z) in change (Z.to_nat z) with v end.
Lemma zb_ok v : (0 <= v < 12)%Z ->
  base_vertex v = P3 (zphi (fst (fst (zb v)))) (zphi (snd (fst (zb v)))) (zphi (snd (zb v))).
Proof.
  intros H. assert (In v [0;1;2;3;4;5;6;7;8;9;10;11]%Z) as Hv by (cbn; lia). clear H.
  cbn in Hv. repeat destruct Hv as [<- | Hv]; try contradiction; apply pt_ext; unfold zphi, base_vertex, zb; tonat; cbn -[phi]; lra.
Qed.
Lemma zdot_ok u v : (0 <= u < 12)%Z -> (0 <= v < 12)%Z -> pdot (base_vertex u) (base_vertex v) = zphi (zdot u v).
Proof.
  intros Hu Hv. rewrite (zb_ok u Hu), (zb_ok v Hv). unfold zdot, pdot. cbn [px py pz].
  destruct (zb u) as [[a b] c], (zb v) as [[a' b'] c']. rewrite !zadd_ok, !zmul_ok. cbn [fst snd]. ring.
Qed.

(** the normal of a panel *)
Definition corner (i : Z) (s : nat) : pt3 := base_vertex (nth s (tri_list (panel i)) 0%Z).
Definition normal (i : Z) : pt3 := padd (corner i 0) (padd (corner i 1) (corner i 2)).
Definition inb (x : Z) (l : list Z) : bool := existsb (Z.eqb x) l.
Definition znormal (i v : Z) : Z * Z :=
  zadd (zdot (nth 0 (tri_list (panel i)) 0%Z) v) (zadd (zdot (nth 1 (tri_list (panel i)) 0%Z) v) (zdot (nth 2 (tri_list (panel i)) 0%Z) v)).

Lemma panel_corners i : (0 <= i < 20)%Z -> forall x, In x (tri_list (panel i)) -> (0 <= x < 12)%Z.
Proof.
  intros Hi x. pose proof (panel_table i Hi) as T. destruct (panel i) as [[a b] c], (edges_of i) as [[e0 e1] e2].
  cbn. lia.
Qed.
Lemma panel_nth i s : (0 <= i < 20)%Z -> (s < 3)%nat -> (0 <= nth s (tri_list (panel i)) 0 < 12)%Z.
Proof.
  intros Hi Hs. apply (panel_corners i Hi). apply nth_In. destruct (panel i) as [[a b] c]. exact Hs.
Qed.
Lemma pdot_add p q r : pdot (padd p q) r = pdot p r + pdot q r.
Proof. unfold pdot, padd. cbn. ring. Qed.
Lemma pdot_scal a p r : pdot (pscal a p) r = a * pdot p r.
Proof. unfold pdot, pscal. cbn. ring. Qed.
Lemma pdot_sym p q : pdot p q = pdot q p.
Proof. unfold pdot. ring. Qed.

Definition height : R := 2 + 3 * phi.
Lemma znormal_ok i v : (0 <= i < 20)%Z -> (0 <= v < 12)%Z -> pdot (normal i) (base_vertex v) = zphi (znormal i v).
Proof.
  intros Hi Hv. unfold normal, znormal, corner. rewrite !pdot_add, !zadd_ok.
  rewrite !zdot_ok; try assumption; try (apply panel_nth; [exact Hi | lia]). reflexivity.
Qed.
(** a panel's corners are the vertices furthest in the direction of its normal *)
Lemma normal_table i v : (0 <= i < 20)%Z -> (0 <= v < 12)%Z ->
  (In v (tri_list (panel i)) -> pdot (normal i) (base_vertex v) = height) /\
  (~ In v (tri_list (panel i)) -> pdot (normal i) (base_vertex v) <= phi).
Proof.
  intros Hi Hv. rewrite znormal_ok by assumption.
  assert (E : forallb (fun i => forallb (fun v =>
      if inb v (tri_list (panel i)) then (fst (znormal i v) =? 2)%Z && (snd (znormal i v) =? 3)%Z
      else (fst (znormal i v) <=? 0)%Z && (snd (znormal i v) <=? 1)%Z) (zrange 12)) (zrange 20) = true)
    by (vm_compute; reflexivity).
  rewrite forallb_forall in E. specialize (E i (proj2 (in_zrange 20 i) Hi)).
  rewrite forallb_forall in E. specialize (E v (proj2 (in_zrange 12 v) Hv)).
  pose proof phi_pos as Hphi.
  assert (B : inb v (tri_list (panel i)) = true <-> In v (tri_list (panel i))).
  { unfold inb. rewrite existsb_exists. split; [intros (x & Hx & ->%Z.eqb_eq); exact Hx | intros H; exists v; split; [exact H | apply Z.eqb_refl]]. }
  unfold zphi, height. destruct (znormal i v) as [x y]. cbn [fst snd] in *.
  destruct (inb v (tri_list (panel i))); apply andb_prop in E as [E1 E2].
  - apply Z.eqb_eq in E1, E2. subst. split; [intros _; lra | intros H; exfalso; apply H, B; reflexivity].
  - apply Z.leb_le in E1, E2. apply IZR_le in E1, E2. split; [intros H%B; discriminate|]. intros _. nra.
Qed.
Lemma gram_table i s t : (0 <= i < 20)%Z -> (s < 3)%nat -> (t < 3)%nat ->
  pdot (corner i s) (corner i t) = if Nat.eqb s t then phi + 2 else phi.
Proof.
  intros Hi Hs Ht. unfold corner. rewrite zdot_ok by (apply panel_nth; assumption).
  assert (E : forallb (fun i => forallb (fun s => forallb (fun t =>
     let z := zdot (nth s (tri_list (panel i)) 0%Z) (nth t (tri_list (panel i)) 0%Z) in
     (fst z =? if Nat.eqb s t then 2 else 0)%Z && (snd z =? 1)%Z) (seq 0 3)) (seq 0 3)) (zrange 20) = true)
    by (vm_compute; reflexivity).
  rewrite forallb_forall in E. specialize (E i (proj2 (in_zrange 20 i) Hi)).
  rewrite forallb_forall in E. specialize (E s ltac:(apply in_seq; lia)).
  rewrite forallb_forall in E. specialize (E t ltac:(apply in_seq; lia)). cbv zeta in E.
  apply andb_prop in E as [E1 E2]. apply Z.eqb_eq in E1, E2. unfold zphi. rewrite E1, E2.
  destruct (Nat.eqb s t); ring.
Qed.

(** ** The coordinates of a place *)
Section Ico.
Variable N : Z.
Hypothesis HN : (1 <= N)%Z.
Lemma NR : 0 < IZR N.
Proof. apply IZR_lt. lia. Qed.

Definition edge_pos (e t : Z) : pt3 := interp (base_vertex (fst (edge_of e))) (base_vertex (snd (edge_of e))) (IZR t / IZR N).
Definition pos (P : place) : pt3 :=
  match P with
  | PB v => base_vertex v
  | PE e t => edge_pos e t
  | PF i j k => let '(_, e1, e2) := edges_of i in interp (edge_pos e1 j) (edge_pos e2 j) (IZR k / IZR (N - j))
  end.
Lemma pos_lattice i j k : (0 <= i < 20)%Z -> inpanel N (j, k) ->
  pos (place_of N i (j, k)) = lattice N (corner i 0) (corner i 1) (corner i 2) j k.
Proof.
  intros Hi Hp. unfold inpanel in Hp. cbn [fst snd] in Hp. pose proof NR as HR.
  pose proof (panel_table i Hi) as T. unfold place_of, corner, lattice.
  destruct (panel i) as [[a b] c] eqn:Ep, (edges_of i) as [[e0 e1] e2] eqn:Ee.
  destruct T as (T1 & T2 & T3 & T4 & T5 & T6 & T7). cbn [tri_list nth].
  repeat match goal with |- context [(?u =? ?w)%Z] => destruct (Z.eqb_spec u w) end; try lia; cbn [pos];
    rewrite ?Ee; unfold edge_pos; rewrite ?T5, ?T6, ?T7; cbn [fst snd]; subst;
    try (assert (HK : k = 0%Z) by lia; rewrite HK in *; clear HK);
    try (assert (HJ : 0 < IZR (N - j)) by (apply IZR_lt; lia); rewrite minus_IZR in HJ);
    unfold interp, padd, pscal, psub, padd, pscal; apply pt_ext; cbn [px py pz]; rewrite ?plus_IZR in *
    ; rewrite ?minus_IZR, ?plus_IZR in *;
    field; lra.
Qed.

(** *** finding a row in a list of rows *)
Lemma nth_flat_map {A B} (f : A -> list B) (l : list A) (m : nat) n r a :
  (forall x, In x l -> length (f x) = m) -> nth_error l n = Some a -> (r < m)%nat ->
  nth_error (flat_map f l) (n * m + r) = nth_error (f a) r.
Proof.
  revert n. induction l as [|x l IH]; intros [|n] Hm Hn Hr; cbn in Hn; try discriminate.
  - inversion Hn; subst. cbn. rewrite nth_error_app1 by (rewrite Hm by (left; reflexivity); exact Hr). reflexivity.
  - cbn [flat_map]. rewrite nth_error_app2 by (rewrite Hm by (left; reflexivity); lia).
    rewrite Hm by (left; reflexivity). replace (S n * m + r - m)%nat with (n * m + r)%nat by lia.
    apply IH; auto. intros; apply Hm; right; assumption.
Qed.
Lemma flat_map_length {A B} (f : A -> list B) l m : (forall x, In x l -> length (f x) = m) -> length (flat_map f l) = (length l * m)%nat.
Proof.
  induction l as [|x l IH]; intros H; [reflexivity|]. cbn [flat_map length].
  rewrite app_length, H by (left; reflexivity). rewrite IH by (intros; apply H; right; assumption). reflexivity.
Qed.
Lemma nth_zrange n x : (0 <= x < n)%Z -> nth_error (zrange n) (Z.to_nat x) = Some x.
Proof.
  intros H. unfold zrange. rewrite nth_error_map.
  rewrite (nth_error_nth' _ 0%nat) by (rewrite seq_length; lia). rewrite seq_nth by lia. cbn. f_equal. lia.
Qed.

Lemma edge_vertices_length : length (edge_vertices N) = (30 * Z.to_nat (N - 1))%nat.
Proof.
  unfold edge_vertices. rewrite (flat_map_length _ _ (Z.to_nat (N - 1))); [reflexivity|].
  intros x _. rewrite map_length, zrange_length. reflexivity.
Qed.
Lemma edge_vertex e t : (0 <= e < 30)%Z -> (1 <= t <= N - 1)%Z ->
  nth_error (edge_vertices N) (Z.to_nat (e * (N - 1) + (t - 1))) = Some (edge_pos e t).
Proof.
  intros He Ht.
  replace (Z.to_nat (e * (N - 1) + (t - 1))) with (Z.to_nat e * Z.to_nat (N - 1) + Z.to_nat (t - 1))%nat by nia.
  unfold edge_vertices. rewrite (nth_flat_map _ _ (Z.to_nat (N - 1)) _ _ (edge_of e)).
  - rewrite nth_error_map, nth_zrange by lia. cbn. f_equal. unfold edge_pos, linspace01.
    replace (t - 1 + 1)%Z with t by lia. replace (N + 1 - 1)%Z with N by lia. reflexivity.
  - intros x _. rewrite map_length, zrange_length. reflexivity.
  - unfold edge_of. apply nth_error_nth'. cbn. lia.
  - lia.
Qed.
Lemma pyget_edge e t : (0 <= e < 30)%Z -> (1 <= t <= N - 1)%Z ->
  pyget (edge_vertices N) (e * (N - 1) + (t - 1)) = Some (edge_pos e t).
Proof.
  intros He Ht. unfold pyget. rewrite edge_vertices_length.
  assert (0 <= e * (N - 1))%Z by nia. assert ((e + 1) * (N - 1) <= 30 * (N - 1))%Z by nia.
  destruct (Z.ltb_spec (e * (N - 1) + (t - 1)) 0); [lia|].
  destruct (Z.leb_spec 0 (e * (N - 1) + (t - 1))); [|lia].
  destruct (Z.ltb_spec (e * (N - 1) + (t - 1)) (Z.of_nat (30 * Z.to_nat (N - 1)))); [|lia].
  apply edge_vertex; assumption.
Qed.
(** rows of decreasing length *)
Lemma face_row_length es j : length (face_row N es j) = Z.to_nat (N - j - 2).
Proof. destruct es as [[e0 e1] e2]. cbn [face_row]. rewrite map_length, zrange_length. reflexivity. Qed.
Lemma rows_length es n : (Z.of_nat n <= N - 2)%Z ->
  Z.of_nat (length (flat_map (face_row N es) (map Z.of_nat (seq 0 n)))) = (tri (N - 1) - tri (N - 1 - Z.of_nat n))%Z.
Proof.
  induction n as [|n IH]; intros H.
  - cbn. rewrite Z.sub_0_r. lia.
  - rewrite seq_S, map_app, flat_map_app, app_length, Nat2Z.inj_add, IH by lia.
    cbn [map flat_map plus]. rewrite app_nil_r, face_row_length.
    assert (tri (N - 1 - Z.of_nat n) = tri (N - 1 - Z.of_nat (S n)) + (N - 1 - Z.of_nat (S n)))%Z
      by (rewrite <- tri_S; f_equal; lia). lia.
Qed.
Lemma panel_rows_length es : length (flat_map (face_row N es) (zrange (N - 2))) = Z.to_nat (tri (N - 1)).
Proof.
  apply Nat2Z.inj. destruct (Z.eq_dec N 1) as [E | E].
  - rewrite E. reflexivity.
  - unfold zrange. rewrite rows_length by lia. rewrite Z2Nat.id by lia.
    replace (N - 1 - (N - 2))%Z with 1%Z by lia. pose proof (tri_nonneg (N - 1) ltac:(lia)).
    change (tri 1) with 0%Z. lia.
Qed.
Lemma row_entry es j k : (1 <= j)%Z -> (1 <= k)%Z -> (j + k <= N - 1)%Z ->
  nth_error (flat_map (face_row N es) (zrange (N - 2))) (Z.to_nat (tri (N - 1) - tri (N - j) + k - 1)) =
  nth_error (face_row N es (j - 1)) (Z.to_nat (k - 1)).
Proof.
  intros Hj Hk Hs.
  assert (Es : zrange (N - 2) = map Z.of_nat (seq 0 (Z.to_nat (j - 1))) ++ map Z.of_nat (seq (Z.to_nat (j - 1)) (Z.to_nat (N - 2 - (j - 1))))).
  { unfold zrange. rewrite <- map_app. f_equal. rewrite <- seq_app. f_equal. lia. }
  rewrite Es, flat_map_app.
  assert (Hlen : Z.of_nat (length (flat_map (face_row N es) (map Z.of_nat (seq 0 (Z.to_nat (j - 1)))))) = (tri (N - 1) - tri (N - j))%Z).
  { rewrite rows_length by lia. f_equal. f_equal. lia. }
  rewrite nth_error_app2 by lia.
  replace (Z.to_nat (N - 2 - (j - 1))) with (S (Z.to_nat (N - 2 - j))) by lia. cbn [seq map flat_map].
  rewrite nth_error_app1 by (rewrite face_row_length; lia).
  f_equal; [f_equal; lia | lia].
Qed.
Lemma face_vertex i j k : (0 <= i < 20)%Z -> (1 <= j)%Z -> (1 <= k)%Z -> (j + k <= N - 1)%Z ->
  nth_error (face_vertices N) (Z.to_nat (i * tri (N - 1) + (tri (N - 1) - tri (N - j) + k - 1))) = Some (Some (pos (PF i j k))).
Proof.
  intros Hi Hj Hk Hs. pose proof (face_off N HN j k Hj Hk Hs) as Ho.
  set (o := (tri (N - 1) - tri (N - j) + k - 1)%Z) in *.
  replace (Z.to_nat (i * tri (N - 1) + o)) with (Z.to_nat i * Z.to_nat (tri (N - 1)) + Z.to_nat o)%nat by nia.
  unfold face_vertices. rewrite (nth_flat_map _ _ (Z.to_nat (tri (N - 1))) _ _ (edges_of i)).
  - unfold o. rewrite row_entry by assumption. cbn [pos].
    pose proof (panel_table i Hi) as T. destruct (panel i) as [[a b] c], (edges_of i) as [[e0 e1] e2] eqn:Ee.
    destruct T as (T1 & T2 & T3 & T4 & _).
    cbn [face_row]. rewrite nth_error_map, nth_zrange by lia. cbn [option_map].
    rewrite !pyget_edge by lia. do 3 f_equal. unfold linspace01. f_equal; f_equal; lia.
  - intros x _. apply panel_rows_length.
  - unfold edges_of. apply nth_error_nth'. cbn. lia.
  - lia.
Qed.
Lemma face_vertices_length : length (face_vertices N) = (20 * Z.to_nat (tri (N - 1)))%nat.
Proof. unfold face_vertices. rewrite (flat_map_length _ _ (Z.to_nat (tri (N - 1)))); [reflexivity|]. intros. apply panel_rows_length. Qed.

Lemma all_vertices_length : Z.of_nat (length (all_vertices N)) = (10 * N * N + 2)%Z.
Proof.
  unfold all_vertices. rewrite !app_length, !map_length, edge_vertices_length, face_vertices_length. cbn [length base_vertices].
  pose proof (tri_nonneg (N - 1) ltac:(lia)). pose proof (tri_twice (N - 1)). nia.
Qed.
Lemma vertex_pos P : valid N P -> nth_error (all_vertices N) (Z.to_nat (idx N P)) = Some (Some (pos P)).
Proof.
  intros HP. unfold all_vertices. destruct P as [v | e t | i j k].
  - unfold valid in HP. unfold idx, pos, base_vertex. rewrite nth_error_app1 by (rewrite map_length; cbn [length base_vertices]; lia). rewrite nth_error_map.
    rewrite (nth_error_nth' _ (P3 0 0 0)) by (cbn [length base_vertices]; lia). reflexivity.
  - destruct HP as [He Ht]. assert (0 <= e * (N - 1))%Z by nia. assert ((e + 1) * (N - 1) <= 30 * (N - 1))%Z by nia.
    unfold idx. rewrite nth_error_app2 by (rewrite map_length; cbn [length base_vertices]; lia). rewrite nth_error_app1 by (rewrite !map_length, edge_vertices_length; cbn [length base_vertices]; lia).
    rewrite nth_error_map. rewrite map_length. cbn [length base_vertices].
    replace (Z.to_nat (12 + e * (N - 1) + (t - 1)) - 12)%nat with (Z.to_nat (e * (N - 1) + (t - 1))) by lia.
    rewrite edge_vertex by assumption. reflexivity.
  - destruct HP as (Hi & Hj & Hk & Hs). pose proof (face_off N HN j k Hj Hk Hs).
    assert (0 <= i * tri (N - 1))%Z by nia.
    unfold idx. rewrite nth_error_app2 by (rewrite map_length; cbn [length base_vertices]; lia).
    rewrite nth_error_app2 by (rewrite !map_length, edge_vertices_length; cbn [length base_vertices]; lia).
    rewrite !map_length, edge_vertices_length. cbn [length base_vertices].
    rewrite <- (face_vertex i j k Hi Hj Hk Hs). f_equal. lia.
Qed.

(** ** Geometry *)
Lemma normal_lattice i i' j k : (0 <= i' < 20)%Z -> pdot (normal i) (lattice N (corner i' 0) (corner i' 1) (corner i' 2) j k) =
  IZR (N - j - k) / IZR N * pdot (normal i) (corner i' 0) + (IZR k / IZR N * pdot (normal i) (corner i' 1) + IZR j / IZR N * pdot (normal i) (corner i' 2)).
Proof.
  intros _. unfold lattice. rewrite pdot_sym, !pdot_add, !pdot_scal. rewrite !(pdot_sym _ (normal i)). reflexivity.
Qed.
Lemma weights j k : inpanel N (j, k) ->
  0 <= IZR (N - j - k) / IZR N /\ 0 <= IZR k / IZR N /\ 0 <= IZR j / IZR N /\
  IZR (N - j - k) / IZR N + (IZR k / IZR N + IZR j / IZR N) = 1.
Proof.
  unfold inpanel. cbn [fst snd]. intros (H1 & H2 & H3). pose proof NR.
  assert (forall z, (0 <= z)%Z -> 0 <= IZR z / IZR N).
  { intros z Hz. apply Rmult_le_pos; [apply IZR_le; exact Hz | left; apply Rinv_0_lt_compat; assumption]. }
  repeat split; [apply H0; lia | apply H0; lia | apply H0; lia|]. rewrite !minus_IZR. field. lra.
Qed.
Lemma own_height i j k : (0 <= i < 20)%Z -> inpanel N (j, k) ->
  pdot (normal i) (lattice N (corner i 0) (corner i 1) (corner i 2) j k) = height.
Proof.
  intros Hi Hp. rewrite normal_lattice by assumption. destruct (weights j k Hp) as (_ & _ & _ & S).
  unfold corner. rewrite !(fun v H => proj1 (normal_table i v Hi H)); try (apply panel_nth; [exact Hi | lia]);
    try (apply nth_In; destruct (panel i) as [[a b] c]; cbn; lia).
  transitivity ((IZR (N - j - k) / IZR N + (IZR k / IZR N + IZR j / IZR N)) * height); [ring|]. rewrite S. ring.
Qed.
Lemma convex3 w0 w1 w2 d0 d1 d2 h : 0 <= w0 -> 0 <= w1 -> 0 <= w2 -> w0 + (w1 + w2) = 1 ->
  d0 <= h -> d1 <= h -> d2 <= h ->
  w0 * d0 + (w1 * d1 + w2 * d2) <= h /\
  (w0 * d0 + (w1 * d1 + w2 * d2) = h -> (0 < w0 -> d0 = h) /\ (0 < w1 -> d1 = h) /\ (0 < w2 -> d2 = h)).
Proof.
  intros W0 W1 W2 S D0 D1 D2.
  assert (P0 : 0 <= w0 * (h - d0)) by (apply Rmult_le_pos; lra).
  assert (P1 : 0 <= w1 * (h - d1)) by (apply Rmult_le_pos; lra).
  assert (P2 : 0 <= w2 * (h - d2)) by (apply Rmult_le_pos; lra).
  assert (E : w0 * d0 + (w1 * d1 + w2 * d2) = h - (w0 * (h - d0) + w1 * (h - d1) + w2 * (h - d2))).
  { transitivity ((w0 + (w1 + w2)) * h - (w0 * (h - d0) + w1 * (h - d1) + w2 * (h - d2))); [ring | rewrite S; ring]. }
  rewrite E. split; [lra|]. intros E'.
  assert (Z : forall w d, 0 < w -> w * (h - d) = 0 -> d = h).
  { intros w d Hw Hz. apply Rmult_integral in Hz as [Hz | Hz]; lra. }
  repeat split; intros Hw; eapply Z; try exact Hw; lra.
Qed.
(** no place lies above a panel's plane, and only places of the panel reach it *)
Lemma other_height i i' j k : (0 <= i < 20)%Z -> (0 <= i' < 20)%Z -> inpanel N (j, k) ->
  pdot (normal i) (lattice N (corner i' 0) (corner i' 1) (corner i' 2) j k) <= height /\
  (pdot (normal i) (lattice N (corner i' 0) (corner i' 1) (corner i' 2) j k) = height ->
   ((0 < N - j - k)%Z -> In (nth 0 (tri_list (panel i')) 0%Z) (tri_list (panel i))) /\
   ((0 < k)%Z -> In (nth 1 (tri_list (panel i')) 0%Z) (tri_list (panel i))) /\
   ((0 < j)%Z -> In (nth 2 (tri_list (panel i')) 0%Z) (tri_list (panel i)))).
Proof.
  intros Hi Hi' Hp. rewrite normal_lattice by assumption. destruct (weights j k Hp) as (W1 & W2 & W3 & S).
  pose proof phi_pos as Hphi. pose proof NR as HR.
  assert (D : forall s, (s < 3)%nat -> pdot (normal i) (corner i' s) <= height /\
      (~ In (nth s (tri_list (panel i')) 0%Z) (tri_list (panel i)) -> pdot (normal i) (corner i' s) < height)).
  { intros s Hs. pose proof (panel_nth i' s Hi' Hs) as Hv. destruct (normal_table i _ Hi Hv) as [A B].
    unfold corner, height in *. destruct (in_dec Z.eq_dec (nth s (tri_list (panel i')) 0%Z) (tri_list (panel i))) as [I | I].
    - rewrite A by exact I. split; [lra|]. contradiction.
    - specialize (B I). split; [lra|]. intros _. lra. }
  destruct (D 0%nat ltac:(lia)) as [A0 B0], (D 1%nat ltac:(lia)) as [A1 B1], (D 2%nat ltac:(lia)) as [A2 B2].
  destruct (convex3 _ _ _ _ _ _ _ W1 W2 W3 S A0 A1 A2) as [L Eq].
  split; [exact L|]. intros E. destruct (Eq E) as (Q0 & Q1 & Q2).
  assert (P : forall z, (0 < z)%Z -> 0 < IZR z / IZR N) by (intros z Hz; apply Rdiv_lt_0_compat; [apply IZR_lt; exact Hz | exact HR]).
  repeat split; intros Hz; apply P in Hz.
  - destruct (in_dec Z.eq_dec (nth 0 (tri_list (panel i')) 0%Z) (tri_list (panel i))) as [I | I]; [exact I|]. specialize (B0 I). specialize (Q0 Hz). lra.
  - destruct (in_dec Z.eq_dec (nth 1 (tri_list (panel i')) 0%Z) (tri_list (panel i))) as [I | I]; [exact I|]. specialize (B1 I). specialize (Q1 Hz). lra.
  - destruct (in_dec Z.eq_dec (nth 2 (tri_list (panel i')) 0%Z) (tri_list (panel i))) as [I | I]; [exact I|]. specialize (B2 I). specialize (Q2 Hz). lra.
Qed.
Lemma supp_weight i j k x : (0 <= i < 20)%Z -> inpanel N (j, k) -> In x (supp (place_of N i (j, k))) ->
  (x = nth 0 (tri_list (panel i)) 0%Z /\ (0 < N - j - k)%Z) \/ (x = nth 1 (tri_list (panel i)) 0%Z /\ (0 < k)%Z) \/
  (x = nth 2 (tri_list (panel i)) 0%Z /\ (0 < j)%Z).
Proof.
  intros Hi Hp. unfold inpanel in Hp. cbn [fst snd] in Hp.
  pose proof (panel_table i Hi) as T. unfold place_of.
  destruct (panel i) as [[a b] c] eqn:Ep, (edges_of i) as [[e0 e1] e2] eqn:Ee.
  destruct T as (T1 & T2 & T3 & T4 & T5 & T6 & T7). cbn [tri_list nth].
  repeat match goal with |- context [(?u =? ?w)%Z] => destruct (Z.eqb_spec u w) end; try lia; cbn [supp];
    rewrite ?T5, ?T6, ?T7, ?Ep; cbn [tri_list fst snd In]; intros Hx;
    repeat destruct Hx as [<- | Hx]; try contradiction; try tauto;
    first [left; split; [reflexivity | lia] | right; left; split; [reflexivity | lia] | right; right; split; [reflexivity | lia]].
Qed.
Lemma supp_loc i P : (0 <= i < 20)%Z -> valid N P -> incl (supp P) (tri_list (panel i)) -> exists p, loc N i P = Some p.
Proof.
  intros Hi HP H. destruct P as [v | e t | i' j k].
  - unfold loc. destruct (panel i) as [[a b] c], (edges_of i) as [[e0 e1] e2]. specialize (H v (or_introl eq_refl)). cbn in H.
    repeat match goal with |- context [(?u =? ?w)%Z] => destruct (Z.eqb_spec u w) end; try (eexists; reflexivity). lia.
  - destruct HP as [He Ht].
    assert (E : forallb (fun e => forallb (fun i => negb (inb (fst (edge_of e)) (tri_list (panel i)) && inb (snd (edge_of e)) (tri_list (panel i)))
        || inb e (tri_list (edges_of i))) (zrange 20)) (zrange 30) = true) by (vm_compute; reflexivity).
    rewrite forallb_forall in E. specialize (E e (proj2 (in_zrange 30 e) He)).
    rewrite forallb_forall in E. specialize (E i (proj2 (in_zrange 20 i) Hi)).
    assert (B : forall x l, In x l -> inb x l = true).
    { intros x l Hx. unfold inb. apply existsb_exists. exists x. split; [exact Hx | apply Z.eqb_refl]. }
    rewrite !B in E by (apply H; cbn; auto). cbn [andb negb orb] in E. unfold inb in E. apply existsb_exists in E as (x & Hx & <-%Z.eqb_eq).
    unfold loc. destruct (panel i) as [[a b] c], (edges_of i) as [[e0 e1] e2]. cbn in Hx.
    repeat match goal with |- context [(?u =? ?w)%Z] => destruct (Z.eqb_spec u w) end; try (eexists; reflexivity). lia.
  - destruct HP as (Hi' & _). apply (panels_distinct i' i Hi' Hi) in H. subst i'.
    exists (j, k). unfold loc. destruct (panel i) as [[a b] c], (edges_of i) as [[e0 e1] e2]. rewrite Z.eqb_refl. reflexivity.
Qed.
Lemma place_in_panel P : valid N P -> exists i p, (0 <= i < 20)%Z /\ inpanel N p /\ place_of N i p = P.
Proof.
  intros HP. pose proof (ct_used _ _ (faces_closed N HN) (idx N P) (idx_range N HN P HP)) as U.
  unfold cells_with in U. destruct (filter (has_vertex (idx N P)) (mesh_faces N)) as [|f l] eqn:Ef; [cbn in U; lia|].
  assert (Hf : In f (filter (has_vertex (idx N P)) (mesh_faces N))) by (rewrite Ef; left; reflexivity).
  apply filter_In in Hf as [Hf Hv]. apply face_in in Hf as (i & c & Hi & Hc & ->).
  unfold has_vertex in Hv. apply existsb_exists in Hv as (x & Hx & <-%Z.eqb_eq).
  rewrite tri_face_ids in Hx. apply in_map_iff in Hx as (p & E & Hp).
  pose proof (lverts_inpanel N c p Hc Hp) as Hin. exists i, p. repeat split; try apply Hi; try apply Hin.
  apply (idx_inj N HN); [apply place_valid; assumption | exact HP | exact E].
Qed.

(** two different places are in different directions from the centre *)
Lemma directions P Q c : valid N P -> valid N Q -> 0 < c -> pos P = pscal c (pos Q) -> P = Q.
Proof.
  intros HP HQ Hc E.
  destruct (place_in_panel P HP) as (i & [j k] & Hi & Hp & <-).
  destruct (place_in_panel Q HQ) as (i' & [j' k'] & Hi' & Hp' & <-).
  rewrite !pos_lattice in E by assumption.
  pose proof (own_height i j k Hi Hp) as O1. pose proof (own_height i' j' k' Hi' Hp') as O2.
  destruct (other_height i i' j' k' Hi Hi' Hp') as [L1 I1].
  destruct (other_height i' i j k Hi' Hi Hp) as [L2 _].
  assert (Hh : 0 < height) by (unfold height; pose proof phi_pos; lra).
  rewrite E, pdot_sym, pdot_scal, pdot_sym in O1. rewrite E, pdot_sym, pdot_scal, pdot_sym in L2. rewrite O2 in L2.
  assert (c = 1) by nra. subst c. rewrite Rmult_1_l in O1.
  destruct (I1 O1) as (J1 & J2 & J3).
  assert (Hin : incl (supp (place_of N i' (j', k'))) (tri_list (panel i))).
  { intros x Hx. apply supp_weight in Hx; try assumption. destruct Hx as [[-> W] | [[-> W] | [-> W]]]; auto. }
  destruct (supp_loc i _ Hi HQ Hin) as ([j2 k2] & El). destruct (place_loc N HN i _ _ Hi HQ El) as [Hp2 E2].
  rewrite <- E2. rewrite <- !pos_lattice in E by assumption. rewrite <- E2 in E. rewrite !pos_lattice in E by assumption.
  (* barycentric coordinates are unique *)
  set (A := corner i 0) in *. set (B := corner i 1) in *. set (C := corner i 2) in *.
  assert (Ed : forall v, pdot (lattice N A B C j k) v = pdot (lattice N A B C j2 k2) v).
  { intros v. rewrite E. unfold pdot, pscal. cbn. ring. }
  unfold lattice in Ed.
  assert (EA := Ed A). assert (EB := Ed B). assert (EC := Ed C).
  rewrite !pdot_add, !pdot_scal in EA, EB, EC. unfold A, B, C in EA, EB, EC.
  rewrite !gram_table in EA, EB, EC by (assumption || lia). cbn [Nat.eqb] in EA, EB, EC.
  destruct (weights j k Hp) as (_ & _ & _ & S1). destruct (weights j2 k2 Hp2) as (_ & _ & _ & S2).
  assert (K : IZR k / IZR N = IZR k2 / IZR N) by nra.
  assert (J : IZR j / IZR N = IZR j2 / IZR N) by nra.
  pose proof NR as HR.
  assert (U : forall x y, IZR x / IZR N = IZR y / IZR N -> x = y).
  { intros x y H. apply eq_IZR. unfold Rdiv in H. apply Rmult_eq_reg_r in H; [exact H|]. apply Rinv_neq_0_compat. lra. }
  apply U in K, J. subst. reflexivity.
Qed.
Lemma pos_norm P : valid N P -> 0 < pdot (pos P) (pos P).
Proof.
  intros HP. destruct (place_in_panel P HP) as (i & [j k] & Hi & Hp & <-). rewrite pos_lattice by assumption.
  pose proof (own_height i j k Hi Hp) as O.
  set (X := lattice N (corner i 0) (corner i 1) (corner i 2) j k) in *.
  assert (Hh : 0 < height) by (unfold height; pose proof phi_pos; lra).
  destruct (Rle_lt_dec (pdot X X) 0) as [L | L]; [|exact L]. exfalso.
  unfold pdot in *. assert (px X = 0) by nra. assert (py X = 0) by nra. assert (pz X = 0) by nra.
  rewrite H, H0, H1 in O. lra.
Qed.
End Ico.

(** ** The theorems *)
Definition vertex_at (N : Z) (v : Z) (X : pt3) : Prop := nth_error (all_vertices N) (Z.to_nat v) = Some (Some X).

Lemma vertex_at_place N v : (1 <= N)%Z -> (0 <= v < 10 * N * N + 2)%Z -> exists P, valid N P /\ idx N P = v /\ vertex_at N v (pos N P).
Proof.
  intros HN Hv. destruct (idx_surj N HN v Hv) as (P & HP & <-). exists P. repeat split; try assumption.
  apply vertex_pos; assumption.
Qed.
Lemma norm_push r X : 0 < r -> 0 < pdot X X -> pnorm (push_out r X) = r.
Proof.
  intros Hr HX. unfold push_out, pnorm.
  replace (pdot (pscal (r / sqrt (pdot X X)) X) (pscal (r / sqrt (pdot X X)) X))
    with (r / sqrt (pdot X X) * (r / sqrt (pdot X X) * pdot X X)) by (unfold pdot, pscal; cbn; ring).
  assert (Hs : 0 < sqrt (pdot X X)) by (apply sqrt_lt_R0; exact HX).
  replace (r / sqrt (pdot X X) * (r / sqrt (pdot X X) * pdot X X)) with (r * r).
  - apply sqrt_square. lra.
  - rewrite <- (sqrt_sqrt (pdot X X)) at 3 by lra. field. lra.
Qed.

(** the array of vertices is completely filled (no lookup fails), and after scaling every vertex
    is at distance [radius] from the centre *)
Theorem icosahedral_vertices_on_sphere : forall N radius, (1 <= N)%Z -> 0 < radius ->
  Z.of_nat (length (all_vertices N)) = total_num_vertices N /\
  forall v, (0 <= v < total_num_vertices N)%Z ->
    exists X, vertex_at N v X /\ pnorm (push_out radius X) = radius.
Proof.
  intros N r HN Hr. rewrite tnv_eq. split; [apply all_vertices_length; exact HN|].
  intros v Hv. destruct (vertex_at_place N v HN Hv) as (P & HP & E & HX). exists (pos N P). split; [exact HX|].
  apply norm_push; [exact Hr | apply pos_norm; assumption].
Qed.
(** different vertex numbers are different points of the sphere *)
Theorem icosahedral_vertices_distinct : forall N radius v w X Y, (1 <= N)%Z -> 0 < radius ->
  (0 <= v < total_num_vertices N)%Z -> (0 <= w < total_num_vertices N)%Z ->
  vertex_at N v X -> vertex_at N w Y -> push_out radius X = push_out radius Y -> v = w.
Proof.
  intros N r v w X Y HN Hr Hv Hw HX HY E. rewrite tnv_eq in Hv, Hw.
  destruct (vertex_at_place N v HN Hv) as (P & HP & <- & HX'). destruct (vertex_at_place N w HN Hw) as (Q & HQ & <- & HY').
  unfold vertex_at in *. rewrite HX' in HX. rewrite HY' in HY. inversion HX; inversion HY; subst. f_equal.
  pose proof (pos_norm N HN P HP) as NP. pose proof (pos_norm N HN Q HQ) as NQ.
  assert (SP : 0 < pnorm (pos N P)) by (apply sqrt_lt_R0; exact NP).
  assert (SQ : 0 < pnorm (pos N Q)) by (apply sqrt_lt_R0; exact NQ).
  apply (directions N HN P Q (pnorm (pos N P) / pnorm (pos N Q))); try assumption.
  - apply Rdiv_lt_0_compat; assumption.
  - set (p := pnorm (pos N P)) in *. set (q := pnorm (pos N Q)) in *. unfold push_out in E. fold p q in E.
    assert (G : forall x y, r / p * x = r / q * y -> x = p / q * y).
    { intros x y H. apply Rmult_eq_reg_l with (r / p); [rewrite H; field; lra|].
      apply Rgt_not_eq, Rdiv_lt_0_compat; assumption. }
    assert (E1 := f_equal px E). assert (E2 := f_equal py E). assert (E3 := f_equal pz E). cbn in E1, E2, E3.
    apply pt_ext; cbn; apply G; assumption.
Qed.

Definition dist_sq (X Y : pt3) : R := pdot (psub X Y) (psub X Y).
Lemma lattice_dist N i j k j' k' : (1 <= N)%Z -> (0 <= i < 20)%Z ->
  let a := IZR (j' - j) in let b := IZR (k' - k) in
  dist_sq (lattice N (corner i 0) (corner i 1) (corner i 2) j k) (lattice N (corner i 0) (corner i 1) (corner i 2) j' k')
  = (a * a + a * b + b * b) * (4 / (IZR N * IZR N)).
Proof.
  intros HN Hi a b. assert (HR : 0 < IZR N) by (apply IZR_lt; lia).
  set (A := corner i 0). set (B := corner i 1). set (C := corner i 2).
  assert (G : forall s t, (s < 3)%nat -> (t < 3)%nat -> pdot (corner i s) (corner i t) = if Nat.eqb s t then phi + 2 else phi)
    by (intros; apply gram_table; assumption).
  assert (AA : pdot A A = phi + 2) by (apply (G 0 0)%nat; lia).
  assert (BB : pdot B B = phi + 2) by (apply (G 1 1)%nat; lia).
  assert (CC : pdot C C = phi + 2) by (apply (G 2 2)%nat; lia).
  assert (AB : pdot A B = phi) by (apply (G 0 1)%nat; lia).
  assert (AC : pdot A C = phi) by (apply (G 0 2)%nat; lia).
  assert (BC : pdot B C = phi) by (apply (G 1 2)%nat; lia).
  assert (E : psub (lattice N A B C j k) (lattice N A B C j' k')
    = padd (pscal ((a + b) / IZR N) A) (padd (pscal (- b / IZR N) B) (pscal (- a / IZR N) C))).
  { apply pt_ext; unfold psub, lattice, padd, pscal; cbn [px py pz]; unfold a, b; rewrite !minus_IZR; field; lra. }
  unfold dist_sq. rewrite E.
  set (x := (a + b) / IZR N). set (y := - b / IZR N). set (z := - a / IZR N).
  transitivity (x * x * pdot A A + y * y * pdot B B + z * z * pdot C C + 2 * (x * y * pdot A B + x * z * pdot A C + y * z * pdot B C)).
  { unfold pdot, padd, pscal; cbn [px py pz]. ring. }
  rewrite AA, BB, CC, AB, AC, BC. unfold x, y, z. field. lra.
Qed.
(** before they are scaled, all cells are equilateral triangles with sides of length 2/N, each of
    them in one of the 20 faces of the icosahedron, on the lattice with N subdivisions *)
Theorem icosahedral_cells_equilateral : forall N degree fs f, (1 <= N)%Z ->
  icosahedral_cells N degree = Ok fs -> In f fs ->
  let '(u, v, w) := f in
  exists X Y Z, vertex_at N u X /\ vertex_at N v Y /\ vertex_at N w Z /\
    dist_sq X Y = (2 / IZR N) ^ 2 /\ dist_sq Y Z = (2 / IZR N) ^ 2 /\ dist_sq Z X = (2 / IZR N) ^ 2 /\
    exists a b c, In (a, b, c) panels /\ forall T, In T [X; Y; Z] -> exists j k, (0 <= j /\ 0 <= k /\ j + k <= N)%Z /\
      T = lattice N (base_vertex a) (base_vertex b) (base_vertex c) j k.
Proof.
  intros N degree fs f HN Hok Hf.
  assert (Efs : fs = mesh_faces N).
  { unfold icosahedral_cells in Hok. rewrite (all_faces_eq N HN) in Hok.
    repeat match type of Hok with (if ?b then _ else _) = _ => destruct b; try discriminate end. congruence. }
  subst fs. apply face_in in Hf as (i & c & Hi & Hc & ->).
  assert (V : forall p, In p (lvl c) -> vertex_at N (idx N (place_of N i p)) (pos N (place_of N i p)) /\
     pos N (place_of N i p) = lattice N (corner i 0) (corner i 1) (corner i 2) (fst p) (snd p) /\ inpanel N p).
  { intros p Hp. pose proof (lverts_inpanel N c p Hc Hp) as Hin. split; [|split; [|exact Hin]].
    - apply vertex_pos; [exact HN|]. apply place_valid; assumption.
    - destruct p as [j k]. apply pos_lattice; assumption. }
  assert (HR : 0 < IZR N) by (apply IZR_lt; lia).
  assert (D4 : (2 / IZR N) ^ 2 = 4 / (IZR N * IZR N)) by (field; lra).
  unfold face_ids. unfold lvl in V. destruct (lverts c) as [[p q] r] eqn:El.
  destruct (V p ltac:(cbn; auto)) as (V1 & L1 & I1). destruct (V q ltac:(cbn; auto)) as (V2 & L2 & I2).
  destruct (V r ltac:(cbn; auto)) as (V3 & L3 & I3).
  exists (pos N (place_of N i p)), (pos N (place_of N i q)), (pos N (place_of N i r)).
  split; [exact V1|split; [exact V2|split; [exact V3|]]].
  rewrite L1, L2, L3, D4, !lattice_dist by assumption. cbv zeta.
  destruct c as [[o j] k]. unfold lverts in El.
  split; [|split; [|split]].
  1-3: destruct o; inversion El; subst; cbn [fst snd];
    repeat match goal with |- context [IZR (?x - ?y)] =>
      first [replace (x - y)%Z with 1%Z by lia | replace (x - y)%Z with (-1)%Z by lia | replace (x - y)%Z with 0%Z by lia] end; ring.
  destruct (panel i) as [[a b] d] eqn:Ep. exists a, b, d. split.
  - rewrite <- Ep. unfold panel. apply nth_In. cbn. lia.
  - intros T HT. unfold corner in HT. rewrite Ep in HT. cbn [tri_list nth] in HT.
    destruct HT as [<- | [<- | [<- | []]]]; eexists; eexists; (split; [|reflexivity]); assumption.
Qed.
(** nodes of a higher-degree coordinate field: whatever the point of a flat (scaled) cell they are
    interpolated at, pushing them out puts them at distance [radius] *)
Theorem icosahedral_higher_degree : forall N degree fs u v w X Y Z radius s t q, (1 <= N)%Z -> 0 < radius ->
  icosahedral_cells N degree = Ok fs -> In (u, v, w) fs ->
  vertex_at N u X -> vertex_at N v Y -> vertex_at N w Z ->
  0 <= s -> 0 <= t -> 0 <= q -> s + t + q = 1 ->
  pnorm (push_out radius (padd (pscal s (push_out radius X)) (padd (pscal t (push_out radius Y)) (pscal q (push_out radius Z))))) = radius.
Proof.
  intros N degree fs u v w X Y Z r s t q HN Hr Hok Hf HX HY HZ Hs Ht Hq S.
  assert (Efs : fs = mesh_faces N).
  { unfold icosahedral_cells in Hok. rewrite (all_faces_eq N HN) in Hok.
    repeat match type of Hok with (if ?b then _ else _) = _ => destruct b; try discriminate end. congruence. }
  subst fs. apply face_in in Hf as (i & c & Hi & Hc & Ef).
  assert (V : forall p T, In p (lvl c) -> vertex_at N (idx N (place_of N i p)) T -> 0 < pdot (push_out r T) (normal i)).
  { intros p T Hp HT. pose proof (lverts_inpanel N c p Hc Hp) as Hin. unfold vertex_at in HT.
    rewrite (vertex_pos N HN) in HT by (apply place_valid; assumption). inversion HT; subst. clear HT.
    pose proof (pos_norm N HN _ (place_valid N i p Hi Hin)) as Hn.
    unfold push_out. rewrite pdot_scal. destruct p as [j k]. rewrite pos_lattice in * by assumption.
    rewrite (pdot_sym _ (normal i)), own_height by assumption.
    apply Rmult_lt_0_compat; [apply Rdiv_lt_0_compat; [exact Hr | apply sqrt_lt_R0; exact Hn]|].
    unfold height. pose proof phi_pos. lra. }
  unfold face_ids in Ef. unfold lvl in V. destruct (lverts c) as [[p1 p2] p3]. inversion Ef; subst u v w.
  pose proof (V p1 X ltac:(cbn; auto) HX) as D1. pose proof (V p2 Y ltac:(cbn; auto) HY) as D2. pose proof (V p3 Z ltac:(cbn; auto) HZ) as D3.
  apply norm_push; [exact Hr|].
  set (W := padd (pscal s (push_out r X)) (padd (pscal t (push_out r Y)) (pscal q (push_out r Z)))).
  assert (DW : 0 < pdot W (normal i)).
  { unfold W. rewrite !pdot_add, !pdot_scal.
    assert (0 <= s * pdot (push_out r X) (normal i)) by (apply Rmult_le_pos; lra).
    assert (0 <= t * pdot (push_out r Y) (normal i)) by (apply Rmult_le_pos; lra).
    assert (0 <= q * pdot (push_out r Z) (normal i)) by (apply Rmult_le_pos; lra).
    destruct (Rle_lt_dec s 0); [destruct (Rle_lt_dec t 0)|].
    - assert (0 < q * pdot (push_out r Z) (normal i)) by (apply Rmult_lt_0_compat; lra). lra.
    - assert (0 < t * pdot (push_out r Y) (normal i)) by (apply Rmult_lt_0_compat; lra). lra.
    - assert (0 < s * pdot (push_out r X) (normal i)) by (apply Rmult_lt_0_compat; lra). lra. }
  destruct (Rle_lt_dec (pdot W W) 0) as [L | L]; [|exact L]. exfalso.
  unfold pdot in *. assert (px W = 0) by nra. assert (py W = 0) by nra. assert (pz W = 0) by nra.
  rewrite H, H0, H1 in DW. lra.
Qed.
(** a concrete vertex: with N = 2, vertex 13 is the midpoint of the edge from 0 to 5 *)
Theorem icosahedral_vertices_example :
  vertex_at 2 13 (P3 (-1/2) ((phi + 1)/2) (phi/2)) /\ total_num_vertices 2 = 42%Z.
Proof.
  split; [|reflexivity]. unfold vertex_at. change 13%Z with (idx 2 (PE 1 1)).
  rewrite (vertex_pos 2 ltac:(lia)) by (cbn; lia). do 2 f_equal. unfold pos, edge_pos, edge_of, base_vertex. tonat. cbn [nth panel_edges fst snd].
  tonat. apply pt_ext; cbn -[phi]; lra.
Qed.
