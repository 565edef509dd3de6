(** The cubed sphere mesh is, for every refinement, a closed conforming quadrilateral mesh. *)
From Verif Require Import Base Meshes MeshesProps IcosahedronProps.
From Coq Require Import ZArith Lia Permutation.
Open Scope Z_scope.

(** ** Specification *)
Definition quad_list (q : Z * Z * Z * Z) : list Z := let '(a, b, c, d) := q in [a; b; c; d].
(** the sides of a quadrilateral, in the order of its vertices *)
Definition quad_sides (q : Z * Z * Z * Z) : list (Z * Z) :=
  let '(a, b, c, d) := q in [(a, b); (b, c); (c, d); (d, a)].
Definition quad_has (v : Z) (q : Z * Z * Z * Z) : bool := existsb (Z.eqb v) (quad_list q).
Definition quads_with (qs : list (Z * Z * Z * Z)) (v : Z) : nat := length (filter (quad_has v) qs).
Definition quads_with2 (qs : list (Z * Z * Z * Z)) (u v : Z) : nat :=
  length (filter (fun q => quad_has u q && quad_has v q) qs).
Definition quad_edges (qs : list (Z * Z * Z * Z)) : list (Z * Z) :=
  nodup pair_eq_dec (flat_map (fun q => map (fun s => edge_pair (fst s) (snd s)) (quad_sides q)) qs).
Record closed_quad_mesh (qs : list (Z * Z * Z * Z)) (V : Z) : Prop := {
  cq_cells : forall q, In q qs -> NoDup (quad_list q) /\ forall v, In v (quad_list q) -> 0 <= v < V;
  cq_used : forall v, 0 <= v < V -> (1 <= quads_with qs v)%nat;
  cq_edges : forall q u v, In q qs -> In (u, v) (quad_sides q) -> quads_with2 qs u v = 2%nat;
  cq_distinct : forall m n q q', nth_error qs m = Some q -> nth_error qs n = Some q' ->
                  incl (quad_list q) (quad_list q') -> m = n;
  cq_euler : V - Z.of_nat (length (quad_edges qs)) + Z.of_nat (length qs) = 2 }.

Section Cube.
Variable M : Z.   (* cells per edge of a panel *)
Hypothesis HM : 1 <= M.
Notation Nx := (M + 1).

(** ** The points of the surface of the cube [0,M]^3 *)
Definition pt := (Z * Z * Z)%type.
Definition on_cube (P : pt) : Prop :=
  let '(x, y, z) := P in 0 <= x <= M /\ 0 <= y <= M /\ 0 <= z <= M /\
    (x = 0 \/ x = M \/ y = 0 \/ y = M \/ z = 0 \/ z = M).
Definition cpt (p r c : Z) : pt :=
  if p =? 0 then (c, r, 0) else if p =? 1 then (0, r, M - c) else if p =? 2 then (M, r, c)
  else if p =? 3 then (c, M, r) else if p =? 4 then (c, 0, M - r) else (c, M - r, M).
Definition num (P : pt) : Z :=
  let '(x, y, z) := P in
  if z =? 0 then y * Nx + x
  else if z =? M then Nx * Nx + ((M - y) * Nx + x)
  else if y =? 0 then 2 * Nx * Nx + ((M - z - 1) * Nx + x)
  else if y =? M then 2 * Nx * Nx + Nx * (Nx - 2) + ((z - 1) * Nx + x)
  else if x =? 0 then 2 * Nx * Nx + 2 * Nx * (Nx - 2) + ((y - 1) * (M - 1) + (M - z - 1))
  else 2 * Nx * Nx + 2 * Nx * (Nx - 2) + (M - 1) * (M - 1) + ((y - 1) * (M - 1) + (z - 1)).

Ltac eqs := repeat match goal with |- context [?u =? ?w] => destruct (Z.eqb_spec u w) end.
Ltac panels6 p Hp := assert (Hp' : p = 0 \/ p = 1 \/ p = 2 \/ p = 3 \/ p = 4 \/ p = 5) by lia;
  destruct Hp' as [-> | [-> | [-> | [-> | [-> | ->]]]]].

Lemma cpt_on p r c : 0 <= p < 6 -> 0 <= r <= M -> 0 <= c <= M -> on_cube (cpt p r c).
Proof. intros Hp Hr Hc. unfold cpt, on_cube. panels6 p Hp; cbn; lia. Qed.

Lemma pn_num p r c : 0 <= p < 6 -> 0 <= r <= M -> 0 <= c <= M -> panel_numbering Nx p r c = num (cpt p r c).
Proof.
  intros Hp Hr Hc. unfold panel_numbering, cpt. panels6 p Hp; cbn [Z.eqb Pos.eqb];
    unfold num; unfold cube1, cube2; unfold cube3, cube4; unfold cube0, cube5; unfold count2; unfold count1; unfold count3; unfold count4; unfold count5;
    eqs; subst; try lia; replace (M + 1 - 1) with M by lia; replace (M + 1 - 2) with (M - 1) by lia; try lia; nia.
Qed.

(** the blocks of numbers *)
Lemma num_ranges P : on_cube P ->
  let '(x, y, z) := P in
  if z =? 0 then 0 <= num P < Nx * Nx
  else if z =? M then Nx * Nx <= num P < 2 * Nx * Nx
  else if y =? 0 then 2 * Nx * Nx <= num P < 2 * Nx * Nx + Nx * (Nx - 2)
  else if y =? M then 2 * Nx * Nx + Nx * (Nx - 2) <= num P < 2 * Nx * Nx + 2 * Nx * (Nx - 2)
  else if x =? 0 then 2 * Nx * Nx + 2 * Nx * (Nx - 2) <= num P < 2 * Nx * Nx + 2 * Nx * (Nx - 2) + (M - 1) * (M - 1)
  else 2 * Nx * Nx + 2 * Nx * (Nx - 2) + (M - 1) * (M - 1) <= num P < 6 * M * M + 2.
Proof.
  destruct P as [[x y] z]. intros (Hx & Hy & Hz & H). unfold num.
  replace (Nx - 2) with (M - 1) by lia.
  assert (G : forall a b m n, 0 <= a <= m - 1 -> 0 <= b < n -> 0 <= a * n + b < m * n).
  { intros a b m n Ha Hb. assert (0 <= a * n) by (apply Z.mul_nonneg_nonneg; lia).
    assert (0 <= (m - 1 - a) * n) by (apply Z.mul_nonneg_nonneg; lia). lia. }
  eqs; subst.
  - pose proof (G y x Nx Nx). lia.
  - pose proof (G (M - y) x Nx Nx). lia.
  - pose proof (G (M - z - 1) x (M - 1) Nx). lia.
  - pose proof (G (z - 1) x (M - 1) Nx). lia.
  - pose proof (G (y - 1) (M - z - 1) (M - 1) (M - 1)). lia.
  - pose proof (G (y - 1) (z - 1) (M - 1) (M - 1)). lia.
Qed.
Lemma num_range P : on_cube P -> 0 <= num P < 6 * M * M + 2.
Proof.
  intros H. pose proof (num_ranges P H) as R. destruct P as [[x y] z].
  assert (0 <= (M - 1) * (M - 1)) by nia. assert (0 <= Nx * (M - 1)) by nia.
  replace (Nx - 2) with (M - 1) in R by lia.
  revert R. eqs; lia.
Qed.
Lemma num_inj P Q : on_cube P -> on_cube Q -> num P = num Q -> P = Q.
Proof.
  intros HP HQ E. pose proof (num_ranges P HP) as RP. pose proof (num_ranges Q HQ) as RQ.
  destruct P as [[x y] z], Q as [[x' y'] z'].
  replace (Nx - 2) with (M - 1) in * by lia.
  assert (0 <= (M - 1) * (M - 1)) by nia. assert (0 <= Nx * (M - 1)) by nia.
  destruct HP as (Hx & Hy & Hz & H1), HQ as (Hx' & Hy' & Hz' & H2).
  rewrite E in RP. unfold num in E.
  revert RP RQ E. eqs; intros RP RQ E; subst; try lia;
    repeat match goal with
    | H : _ + (?a * ?n + ?b) = _ + (?c * ?n + ?d) |- _ => assert (a * n + b = c * n + d) by lia; clear H
    end;
    match goal with H : ?a * ?n + ?b = ?c * ?n + ?d |- _ => destruct (div_unique2 a b c d n) as [Ea Eb]; [lia | lia | exact H |] end;
    f_equal; try f_equal; lia.
Qed.
Lemma num_surj v : 0 <= v < 6 * M * M + 2 -> exists P, on_cube P /\ num P = v.
Proof.
  intros Hv.
  assert (DM : forall w m n, 0 < n -> 0 <= w < m * n -> exists a b, 0 <= a < m /\ 0 <= b < n /\ a * n + b = w).
  { intros w m n Hn Hw. exists (w / n), (w mod n). pose proof (Z.div_mod w n ltac:(lia)). pose proof (Z.mod_pos_bound w n Hn).
    assert (0 <= w / n < m) by (split; [apply Z.div_pos; lia | apply Z.div_lt_upper_bound; lia]). lia. }
  assert (K : 6 * M * M + 2 = 2 * Nx * Nx + 2 * Nx * (M - 1) + 2 * ((M - 1) * (M - 1))) by lia.
  destruct (Z_lt_le_dec v (Nx * Nx)) as [L | L].
  { destruct (DM v Nx Nx ltac:(lia) ltac:(lia)) as (a & b & Ha & Hb & E).
    exists (b, a, 0). split; [unfold on_cube; lia | unfold num; eqs; lia]. }
  destruct (Z_lt_le_dec v (2 * Nx * Nx)) as [L2 | L2].
  { destruct (DM (v - Nx * Nx) Nx Nx ltac:(lia) ltac:(lia)) as (a & b & Ha & Hb & E).
    exists (b, M - a, M). split; [unfold on_cube; lia|]. unfold num. eqs; try lia.
    all: replace (M - (M - a)) with a by lia; lia. }
  destruct (Z_lt_le_dec v (2 * Nx * Nx + Nx * (M - 1))) as [L3 | L3].
  { destruct (DM (v - 2 * Nx * Nx) (M - 1) Nx ltac:(lia) ltac:(lia)) as (a & b & Ha & Hb & E).
    exists (b, 0, M - a - 1). split; [unfold on_cube; lia|]. unfold num. eqs; try lia.
    all: replace (M - (M - a - 1) - 1) with a by lia; lia. }
  destruct (Z_lt_le_dec v (2 * Nx * Nx + 2 * Nx * (M - 1))) as [L4 | L4].
  { destruct (DM (v - (2 * Nx * Nx + Nx * (M - 1))) (M - 1) Nx ltac:(lia) ltac:(lia)) as (a & b & Ha & Hb & E).
    exists (b, M, a + 1). split; [unfold on_cube; lia|]. unfold num. replace (Nx - 2) with (M - 1) by lia. eqs; try lia.
    all: replace (a + 1 - 1) with a by lia; lia. }
  assert (1 < M).
  { destruct (Z.eq_dec M 1) as [E1 | ]; [|lia]. rewrite E1 in *. lia. }
  destruct (Z_lt_le_dec v (2 * Nx * Nx + 2 * Nx * (M - 1) + (M - 1) * (M - 1))) as [L5 | L5].
  { destruct (DM (v - (2 * Nx * Nx + 2 * Nx * (M - 1))) (M - 1) (M - 1) ltac:(lia) ltac:(lia)) as (a & b & Ha & Hb & E).
    exists (0, a + 1, M - b - 1). split; [unfold on_cube; lia|]. unfold num. replace (Nx - 2) with (M - 1) by lia. eqs; try lia.
    all: replace (a + 1 - 1) with a by lia; lia. }
  destruct (DM (v - (2 * Nx * Nx + 2 * Nx * (M - 1) + (M - 1) * (M - 1))) (M - 1) (M - 1) ltac:(lia) ltac:(lia)) as (a & b & Ha & Hb & E).
  exists (M, a + 1, b + 1). split; [unfold on_cube; lia|]. unfold num. replace (Nx - 2) with (M - 1) by lia. eqs; try lia.
  all: replace (a + 1 - 1) with a by lia; lia.
Qed.

(** ** A point in a panel *)
Definition cloc (p : Z) (P : pt) : option (Z * Z) :=
  let '(x, y, z) := P in
  if p =? 0 then (if z =? 0 then Some (y, x) else None)
  else if p =? 1 then (if x =? 0 then Some (y, M - z) else None)
  else if p =? 2 then (if x =? M then Some (y, z) else None)
  else if p =? 3 then (if y =? M then Some (z, x) else None)
  else if p =? 4 then (if y =? 0 then Some (M - z, x) else None)
  else (if z =? M then Some (M - y, x) else None).
Definition insq (q : Z * Z) : Prop := 0 <= fst q <= M /\ 0 <= snd q <= M.
Lemma cloc_cpt p r c : 0 <= p < 6 -> cloc p (cpt p r c) = Some (r, c).
Proof.
  intros Hp. unfold cpt. panels6 p Hp; cbn [Z.eqb Pos.eqb]; unfold cloc; cbn [Z.eqb Pos.eqb];
    rewrite ?Z.eqb_refl; f_equal; f_equal; lia.
Qed.
Lemma cpt_cloc p P q : 0 <= p < 6 -> on_cube P -> cloc p P = Some q -> insq q /\ cpt p (fst q) (snd q) = P.
Proof.
  destruct P as [[x y] z]. intros Hp (Hx & Hy & Hz & H). unfold insq.
  panels6 p Hp; unfold cloc, cpt; cbn [Z.eqb Pos.eqb]; eqs; intros E; inversion E; subst; cbn [fst snd];
    (split; [lia | f_equal; try f_equal; lia]).
Qed.

(** ** Counting *)
Definition sq_valid (s : Z * Z) : bool := (0 <=? fst s) && (fst s <=? M - 1) && (0 <=? snd s) && (snd s <=? M - 1).
Definition sq_pts (s : Z * Z) : list (Z * Z) := let '(r, c) := s in [(r, c); (r + 1, c); (r + 1, c + 1); (r, c + 1)].
Definition sq_has (q : Z * Z) (s : Z * Z) : bool := existsb (pt_eqb q) (sq_pts s).
Definition squares : list (Z * Z) := flat_map (fun r => map (fun c => (r, c)) (zrange M)) (zrange M).
Lemma in_squares s : In s squares <-> sq_valid s = true.
Proof.
  destruct s as [r c]. unfold squares, sq_valid. rewrite !andb_true_iff, !Z.leb_le, in_flat_map. cbn [fst snd]. split.
  - intros (x & Hx%in_zrange & H). apply in_map_iff in H as (y & E & Hy%in_zrange). inversion E; subst. lia.
  - intros H. exists r. split; [apply in_zrange; lia|]. apply in_map_iff. exists c. split; [reflexivity | apply in_zrange; lia].
Qed.
Lemma squares_NoDup : NoDup squares.
Proof.
  unfold squares. apply NoDup_flat_map; [apply zrange_NoDup| |].
  - intros r _. apply FinFun.Injective_map_NoDup; [intros a b E; congruence | apply zrange_NoDup].
  - intros a b x _ _ (? & <- & _)%in_map_iff (? & E & _)%in_map_iff. congruence.
Qed.
Definition cell_of (p : Z) (s : Z * Z) : Z * Z * Z * Z := cube_cell Nx p (fst s) (snd s).
Definition mesh_quads : list (Z * Z * Z * Z) := flat_map (fun p => map (cell_of p) squares) (zrange 6).
Lemma cube_cells_eq : cube_cells Nx = mesh_quads.
Proof.
  unfold cube_cells, mesh_quads, squares, cell_of. replace (Nx - 1) with M by lia.
  apply flat_map_ext_in. intros p _. rewrite flat_map_map. apply flat_map_ext_in. intros r _. rewrite map_map. reflexivity.
Qed.
Lemma sq_pts_in s q : sq_valid s = true -> In q (sq_pts s) -> insq q.
Proof.
  destruct s as [r c]. unfold sq_valid, sq_pts, insq. cbn [fst snd]. rewrite !andb_true_iff, !Z.leb_le. cbn.
  intros H [<- | [<- | [<- | [<- | []]]]]; cbn; lia.
Qed.
Lemma quad_cell p s : 0 <= p < 6 -> sq_valid s = true -> quad_list (cell_of p s) = map (fun q => num (cpt p (fst q) (snd q))) (sq_pts s).
Proof.
  intros Hp Hs. destruct s as [r c]. unfold cell_of, cube_cell, sq_pts. cbn [fst snd quad_list map].
  unfold sq_valid in Hs. cbn [fst snd] in Hs. rewrite !andb_true_iff, !Z.leb_le in Hs.
  rewrite !pn_num by lia. reflexivity.
Qed.
Definition o_has (q : option (Z * Z)) (s : Z * Z) : bool := match q with Some q => sq_has q s | None => false end.
Lemma quad_has_local p s P : 0 <= p < 6 -> sq_valid s = true -> on_cube P ->
  quad_has (num P) (cell_of p s) = o_has (cloc p P) s.
Proof.
  intros Hp Hs HP. apply eq_true_iff_eq. unfold quad_has, o_has. rewrite quad_cell by assumption. rewrite existsb_exists. split.
  - intros (x & Hx & E%Z.eqb_eq). apply in_map_iff in Hx as ([r c] & <- & Hq). cbn [fst snd] in E.
    pose proof (sq_pts_in s _ Hs Hq) as [Hr Hc]. cbn [fst snd] in Hr, Hc.
    apply num_inj in E; [|exact HP | apply cpt_on; assumption]. subst P. rewrite cloc_cpt by exact Hp.
    unfold sq_has. apply existsb_exists. exists (r, c). split; [exact Hq | apply pt_eqb_spec; reflexivity].
  - destruct (cloc p P) as [q|] eqn:El; [|discriminate]. intros H. apply existsb_exists in H as (q' & Hq & <-%pt_eqb_spec).
    destruct (cpt_cloc p P q Hp HP El) as [_ E]. exists (num (cpt p (fst q) (snd q))).
    split; [apply in_map_iff; exists q; auto | rewrite E; apply Z.eqb_refl].
Qed.
Definition four (q : Z * Z) : list (Z * Z) := let '(r, c) := q in [(r, c); (r - 1, c); (r, c - 1); (r - 1, c - 1)].
Lemma four_spec q s : In s (four q) <-> sq_has q s = true.
Proof.
  destruct q as [r c], s as [x y]. unfold sq_has. rewrite existsb_exists. split.
  - cbn. intros H. exists (r, c). split; [|apply pt_eqb_spec; reflexivity].
    repeat destruct H as [H | H]; try contradiction; injection H as <- <-; cbn; 
      repeat first [left; f_equal; lia | right].
  - intros (q & Hq & <-%pt_eqb_spec). cbn in Hq. cbn.
    repeat destruct Hq as [Hq | Hq]; try contradiction; inversion Hq; subst;
      repeat first [left; repeat f_equal; lia | right].
Qed.
Lemma four_NoDup q : NoDup (four q).
Proof.
  destruct q as [r c]. unfold four. repeat constructor; cbn; intros H;
    repeat destruct H as [H | H]; try contradiction; inversion H; lia.
Qed.
Lemma filter_squares (F : Z * Z -> bool) q :
  length (filter (fun s => sq_has q s && F s) squares) = length (filter (fun s => sq_valid s && F s) (four q)).
Proof.
  apply Permutation_length, NoDup_Permutation; [apply NoDup_filter, squares_NoDup | apply NoDup_filter, four_NoDup|].
  intros s. rewrite !filter_In, !andb_true_iff, in_squares, four_spec. tauto.
Qed.
Definition qcount (q : option (Z * Z)) : nat := match q with Some q => length (filter sq_valid (four q)) | None => 0%nat end.
Definition qcount2 (q q' : option (Z * Z)) : nat :=
  match q, q' with Some q, Some q' => length (filter (fun s => sq_valid s && sq_has q' s) (four q)) | _, _ => 0%nat end.
Lemma quads_with_eq P : on_cube P -> quads_with mesh_quads (num P) = nsum (map (fun p => qcount (cloc p P)) (zrange 6)).
Proof.
  intros HP. unfold quads_with, mesh_quads. rewrite filter_length_sum. f_equal. apply map_ext_in.
  intros p Hp%in_zrange. rewrite filter_map_length.
  rewrite (filter_ext_in _ (o_has (cloc p P))).
  2:{ intros s Hs%in_squares. apply quad_has_local; assumption. }
  destruct (cloc p P) as [q|]; cbn [o_has qcount]; [|rewrite filter_none; reflexivity].
  rewrite (filter_ext (fun s => sq_has q s) (fun s => sq_has q s && true)) by (intros; rewrite andb_true_r; reflexivity).
  rewrite filter_squares. f_equal. apply filter_ext. intros. apply andb_true_r.
Qed.
Lemma quads_with2_eq P Q : on_cube P -> on_cube Q ->
  quads_with2 mesh_quads (num P) (num Q) = nsum (map (fun p => qcount2 (cloc p P) (cloc p Q)) (zrange 6)).
Proof.
  intros HP HQ. unfold quads_with2, mesh_quads. rewrite filter_length_sum. f_equal. apply map_ext_in.
  intros p Hp%in_zrange. rewrite filter_map_length.
  rewrite (filter_ext_in _ (fun s => o_has (cloc p P) s && o_has (cloc p Q) s)).
  2:{ intros s Hs%in_squares. rewrite !quad_has_local by assumption. reflexivity. }
  destruct (cloc p P) as [q|]; cbn [o_has qcount2]; [|rewrite filter_none; reflexivity].
  destruct (cloc p Q) as [q'|]; cbn [o_has]; [apply filter_squares|].
  rewrite (filter_ext _ (fun _ => false)) by (intros; apply andb_false_r). rewrite filter_none. reflexivity.
Qed.

(** cells along a segment of a panel *)
Lemma seg_col r c r' c' : r' = r -> c' = c + 1 \/ c' = c - 1 -> 0 <= c <= M -> 0 <= c' <= M -> 0 <= r <= M ->
  qcount2 (Some (r, c)) (Some (r', c')) = (b2n (r <=? M - 1)%Z + b2n (1 <=? r)%Z)%nat.
Proof.
  intros -> Hc H1 H2 H3. unfold qcount2, four, filter, sq_has, sq_pts, existsb, pt_eqb, sq_valid, fst, snd.
  destruct Hc as [-> | ->]; destruct (Z.eq_dec r 0) as [-> | Hr]; [|destruct (Z.eq_dec r M) as [-> | Hr2]| |destruct (Z.eq_dec r M) as [-> | Hr2]];
  repeat match goal with
  | |- context [?a <=? ?b] => first [replace (a <=? b) with true by (symmetry; apply Z.leb_le; lia)
                                   | replace (a <=? b) with false by (symmetry; apply Z.leb_gt; lia)]
  | |- context [?a =? ?b] => first [replace (a =? b) with true by (symmetry; apply Z.eqb_eq; lia)
                                   | replace (a =? b) with false by (symmetry; apply Z.eqb_neq; lia)]
  end; repeat match goal with |- context [?a <=? ?b] => destruct (a <=? b) end; reflexivity.
Qed.
Lemma seg_row r c r' c' : c' = c -> r' = r + 1 \/ r' = r - 1 -> 0 <= c <= M -> 0 <= r <= M -> 0 <= r' <= M ->
  qcount2 (Some (r, c)) (Some (r', c')) = (b2n (c <=? M - 1)%Z + b2n (1 <=? c)%Z)%nat.
Proof.
  intros -> Hc H1 H2 H3. unfold qcount2, four, filter, sq_has, sq_pts, existsb, pt_eqb, sq_valid, fst, snd.
  destruct Hc as [-> | ->]; destruct (Z.eq_dec c 0) as [-> | Hr]; [|destruct (Z.eq_dec c M) as [-> | Hr2]| |destruct (Z.eq_dec c M) as [-> | Hr2]];
  repeat match goal with
  | |- context [?a <=? ?b] => first [replace (a <=? b) with true by (symmetry; apply Z.leb_le; lia)
                                   | replace (a <=? b) with false by (symmetry; apply Z.leb_gt; lia)]
  | |- context [?a =? ?b] => first [replace (a =? b) with true by (symmetry; apply Z.eqb_eq; lia)
                                   | replace (a =? b) with false by (symmetry; apply Z.eqb_neq; lia)]
  end; repeat match goal with |- context [?a <=? ?b] => destruct (a <=? b) end; reflexivity.
Qed.
Ltac q_seg := repeat match goal with |- context [qcount2 (Some (?r, ?c)) (Some (?r', ?c'))] =>
  first [rewrite (seg_col r c r' c') by lia | rewrite (seg_row r c r' c') by lia] end.
Ltac const_eq := repeat match goal with |- context [?a =? ?b] =>
  let v := eval compute in (a =? b) in
  lazymatch v with true => change (a =? b) with true | false => change (a =? b) with false end end.
Lemma zr6 : zrange 6 = [0;1;2;3;4;5].
Proof. reflexivity. Qed.
Lemma side_two p r c r' c' : 0 <= p < 6 -> insq (r, c) -> insq (r', c') ->
  (r' = r /\ c' = c + 1) \/ (r' = r + 1 /\ c' = c) ->
  nsum (map (fun p' => qcount2 (cloc p' (cpt p r c)) (cloc p' (cpt p r' c'))) (zrange 6)) = 2%nat.
Proof.
  intros Hp H1 H2 D. unfold insq in *. cbn [fst snd] in *. rewrite zr6. cbn [map nsum fold_right].
  panels6 p Hp; unfold cpt, cloc; const_eq; cbv iota;
    destruct D as [[Er Ec] | [Er Ec]]; subst r' c'; eqs; try lia; unfold nsum, nadd; cbn [fold_right];
    q_seg;
    repeat match goal with
    | |- context [?a <=? ?b] => first [replace (a <=? b) with true by (symmetry; apply Z.leb_le; lia)
                                     | replace (a <=? b) with false by (symmetry; apply Z.leb_gt; lia)] end;
    reflexivity.
Qed.

(** ** The valence of a vertex *)
Lemma qcount_eq r c : 0 <= r <= M -> 0 <= c <= M ->
  qcount (Some (r, c)) = ((b2n (r <=? M - 1)%Z + b2n (1 <=? r)%Z) * (b2n (c <=? M - 1)%Z + b2n (1 <=? c)%Z))%nat.
Proof.
  intros Hr Hc. unfold qcount, four, filter, sq_valid, fst, snd.
  replace (0 <=? r) with true by (symmetry; apply Z.leb_le; lia). replace (0 <=? c) with true by (symmetry; apply Z.leb_le; lia).
  replace (r - 1 <=? M - 1) with true by (symmetry; apply Z.leb_le; lia). replace (c - 1 <=? M - 1) with true by (symmetry; apply Z.leb_le; lia).
  replace (0 <=? r - 1) with (1 <=? r) by (apply eq_true_iff_eq; rewrite !Z.leb_le; lia).
  replace (0 <=? c - 1) with (1 <=? c) by (apply eq_true_iff_eq; rewrite !Z.leb_le; lia).
  destruct (r <=? M - 1), (1 <=? r), (c <=? M - 1), (1 <=? c); reflexivity.
Qed.
Lemma quad_valence P : on_cube P -> quads_with mesh_quads (num P) = 3%nat \/ quads_with mesh_quads (num P) = 4%nat.
Proof.
  intros HP. rewrite quads_with_eq by exact HP. rewrite zr6. destruct P as [[x y] z]. destruct HP as (Hx & Hy & Hz & H).
  cbn [map nsum fold_right]. unfold nsum, nadd. cbn [fold_right]. unfold cloc. const_eq. cbv iota.
  eqs; subst; try lia; rewrite ?qcount_eq by lia;
    repeat match goal with
    | |- context [?a <=? ?b] => first [replace (a <=? b) with true by (symmetry; apply Z.leb_le; lia)
                                     | replace (a <=? b) with false by (symmetry; apply Z.leb_gt; lia)] end;
    cbn; auto.
Qed.

(** ** Distances *)
Definition l1 (P Q : pt) : Z :=
  let '(x, y, z) := P in let '(x', y', z') := Q in Z.abs (x - x') + Z.abs (y - y') + Z.abs (z - z').
Lemma l1_cpt p r c r' c' : 0 <= p < 6 -> l1 (cpt p r c) (cpt p r' c') = Z.abs (r - r') + Z.abs (c - c').
Proof. intros Hp. unfold cpt. panels6 p Hp; const_eq; cbv iota; unfold l1; lia. Qed.

Lemma cpt_inj p r c r' c' : 0 <= p < 6 -> cpt p r c = cpt p r' c' -> r = r' /\ c = c'.
Proof.
  intros Hp E. pose proof (cloc_cpt p r c Hp) as A. rewrite E, cloc_cpt in A by exact Hp. inversion A. auto.
Qed.
Lemma sq_pts_NoDup s : NoDup (sq_pts s).
Proof.
  destruct s as [r c]. unfold sq_pts. repeat constructor; cbn; intros H;
    repeat destruct H as [H | H]; try contradiction; inversion H; lia.
Qed.
Lemma quad_NoDup p s : 0 <= p < 6 -> sq_valid s = true -> NoDup (quad_list (cell_of p s)).
Proof.
  intros Hp Hs. rewrite quad_cell by assumption. apply NoDup_map_in; [|apply sq_pts_NoDup].
  intros [r c] [r' c'] H1 H2 E. cbn [fst snd] in E.
  pose proof (sq_pts_in s _ Hs H1) as [A1 A2]. pose proof (sq_pts_in s _ Hs H2) as [B1 B2]. cbn [fst snd] in *.
  apply num_inj in E; [|apply cpt_on; assumption | apply cpt_on; assumption].
  apply cpt_inj in E as [-> ->]; [reflexivity | exact Hp].
Qed.
Lemma quad_in q : In q mesh_quads -> exists p s, 0 <= p < 6 /\ sq_valid s = true /\ q = cell_of p s.
Proof.
  unfold mesh_quads. intros (p & Hp%in_zrange & H)%in_flat_map. apply in_map_iff in H as (s & <- & Hs%in_squares). eauto.
Qed.
(** a side of a cell: two points at distance one *)
Lemma side_points p s u v : 0 <= p < 6 -> sq_valid s = true -> In (u, v) (quad_sides (cell_of p s)) ->
  exists r c r' c', insq (r, c) /\ insq (r', c') /\ u = num (cpt p r c) /\ v = num (cpt p r' c') /\ Z.abs (r - r') + Z.abs (c - c') = 1.
Proof.
  intros Hp Hs. pose proof Hs as Hs'. destruct s as [r c]. unfold sq_valid in Hs. cbn [fst snd] in Hs. rewrite !andb_true_iff, !Z.leb_le in Hs.
  unfold cell_of, cube_cell, quad_sides. cbn [fst snd]. rewrite !pn_num by lia.
  intros [E | [E | [E | [E | []]]]]; inversion E; subst; do 4 eexists;
    (split; [|split; [|split; [reflexivity|split; [reflexivity|lia]]]]); unfold insq; cbn [fst snd]; lia.
Qed.
Lemma side_count p r c r' c' : 0 <= p < 6 -> insq (r, c) -> insq (r', c') -> Z.abs (r - r') + Z.abs (c - c') = 1 ->
  quads_with2 mesh_quads (num (cpt p r c)) (num (cpt p r' c')) = 2%nat.
Proof.
  intros Hp H1 H2 D.
  assert (S : forall a b a' b', insq (a, b) -> insq (a', b') -> (a' = a /\ b' = b + 1) \/ (a' = a + 1 /\ b' = b) ->
     quads_with2 mesh_quads (num (cpt p a b)) (num (cpt p a' b')) = 2%nat).
  { intros a b a' b' I1 I2 D'. rewrite quads_with2_eq by (apply cpt_on; [exact Hp | apply I1 || apply I2 | apply I1 || apply I2]).
    apply side_two; assumption. }
  assert (C : forall x y, quads_with2 mesh_quads x y = quads_with2 mesh_quads y x).
  { intros x y. unfold quads_with2. f_equal. apply filter_ext. intros. apply andb_comm. }
  assert ((r' = r /\ c' = c + 1) \/ (r' = r + 1 /\ c' = c) \/ (r = r' /\ c = c' + 1) \/ (r = r' + 1 /\ c = c')) as [E | [E | [E | E]]] by lia.
  - apply S; auto.
  - apply S; auto.
  - rewrite C. apply S; auto.
  - rewrite C. apply S; auto.
Qed.

Lemma nodup4 (a b c d : Z) : NoDup [a; b; c; d] -> a <> b /\ a <> c /\ a <> d /\ b <> c /\ b <> d /\ c <> d.
Proof.
  intros H. inversion H as [|? ? H1 H2]; subst. inversion H2 as [|? ? H3 H4]; subst. inversion H4 as [|? ? H5 H6]; subst.
  cbn in H1, H3, H5. repeat split; intros ->; tauto.
Qed.
Definition side_pairs (q : Z * Z * Z * Z) : list (Z * Z) := map (fun s => edge_pair (fst s) (snd s)) (quad_sides q).
Lemma side_pairs_NoDup q : NoDup (quad_list q) -> NoDup (side_pairs q).
Proof.
  destruct q as [[[a b] c] d]. cbn [quad_list]. intros (H1 & H2 & H3 & H4 & H5 & H6)%nodup4.
  unfold side_pairs, quad_sides. cbn [map fst snd]. repeat constructor; cbn; intros H;
    repeat destruct H as [H | H]; try contradiction; apply edge_pair_eq in H; lia.
Qed.
Lemma count_pair q x : NoDup (side_pairs q) -> count_occ pair_eq_dec (side_pairs q) x = if in_dec pair_eq_dec x (side_pairs q) then 1%nat else 0%nat.
Proof.
  intros H. destruct (in_dec pair_eq_dec x (side_pairs q)) as [I | I].
  - apply NoDup_count_occ'; assumption.
  - apply count_occ_not_In. exact I.
Qed.
(** a cell that has both ends of a side has the side *)
Lemma has_side p s r c r' c' p0 : 0 <= p0 < 6 -> insq (r, c) -> insq (r', c') -> Z.abs (r - r') + Z.abs (c - c') = 1 ->
  0 <= p < 6 -> sq_valid s = true ->
  (In (edge_pair (num (cpt p0 r c)) (num (cpt p0 r' c'))) (side_pairs (cell_of p s)) <->
   quad_has (num (cpt p0 r c)) (cell_of p s) && quad_has (num (cpt p0 r' c')) (cell_of p s) = true).
Proof.
  intros Hp0 I1 I2 D Hp Hs. set (P := cpt p0 r c) in *. set (Q := cpt p0 r' c') in *.
  assert (HP : on_cube P) by (apply cpt_on; [exact Hp0 | apply I1 | apply I1]).
  assert (HQ : on_cube Q) by (apply cpt_on; [exact Hp0 | apply I2 | apply I2]).
  assert (HD : l1 P Q = 1) by (unfold P, Q; rewrite l1_cpt by exact Hp0; exact D).
  split.
  - unfold side_pairs. intros H. apply in_map_iff in H as ([a b] & E & Hs2). cbn [fst snd] in E. apply edge_pair_eq in E.
    assert (Hq : forall x y, In (x, y) (quad_sides (cell_of p s)) -> quad_has x (cell_of p s) = true /\ quad_has y (cell_of p s) = true).
    { intros x y H. destruct (cell_of p s) as [[[A B] C] E']. unfold quad_has, quad_list, existsb.
      cbn in H. repeat destruct H as [H | H]; try contradiction; inversion H; subst; rewrite !Z.eqb_refl, ?orb_true_r; auto. }
    destruct (Hq a b Hs2) as [Ha Hb]. destruct E as [[-> ->] | [-> ->]]; rewrite Ha, Hb; reflexivity.
  - rewrite !quad_has_local by assumption. intros (H1 & H2)%andb_true_iff. unfold o_has in *.
    destruct (cloc p P) as [[a b]|] eqn:E1; [|discriminate]. destruct (cloc p Q) as [[a' b']|] eqn:E2; [|discriminate].
    destruct (cpt_cloc p P _ Hp HP E1) as [_ EP]. destruct (cpt_cloc p Q _ Hp HQ E2) as [_ EQ]. cbn [fst snd] in EP, EQ.
    rewrite <- EP, <- EQ in HD. rewrite l1_cpt in HD by exact Hp. rewrite <- EP, <- EQ.
    unfold sq_has in H1, H2. apply existsb_exists in H1 as (q1 & Hq1 & <-%pt_eqb_spec). apply existsb_exists in H2 as (q2 & Hq2 & <-%pt_eqb_spec).
    destruct s as [x y]. unfold sq_valid in Hs. cbn [fst snd] in Hs. rewrite !andb_true_iff, !Z.leb_le in Hs.
    unfold side_pairs, cell_of, cube_cell, quad_sides. cbn [fst snd map]. rewrite !pn_num by lia.
    assert (Sym : forall m n, edge_pair m n = edge_pair n m) by (intros; unfold edge_pair; f_equal; lia).
    cbn in Hq1, Hq2.
    repeat (destruct Hq1 as [Hq1 | Hq1]; [inversion Hq1; subst; clear Hq1 | try contradiction]); try contradiction;
    repeat (destruct Hq2 as [Hq2 | Hq2]; [inversion Hq2; subst; clear Hq2 | try contradiction]); try contradiction; try lia;
      cbn [In]; first [left; reflexivity | right; left; reflexivity | right; right; left; reflexivity | right; right; right; left; reflexivity
        | rewrite Sym; first [left; reflexivity | right; left; reflexivity | right; right; left; reflexivity | right; right; right; left; reflexivity]
        | match goal with |- context [edge_pair ?m ?n = _] => idtac end;
          first [left; apply Sym | right; left; apply Sym | right; right; left; apply Sym | right; right; right; left; apply Sym]].
Qed.

(** no two cells have the same vertices *)
Lemma quad_set_inj p s p' s' : 0 <= p < 6 -> 0 <= p' < 6 -> sq_valid s = true -> sq_valid s' = true ->
  incl (quad_list (cell_of p s)) (quad_list (cell_of p' s')) -> p = p' /\ s = s'.
Proof.
  intros Hp Hq6 Hs Hs' H. rewrite !quad_cell in H by assumption.
  assert (L : forall q, In q (sq_pts s) -> exists q', In q' (sq_pts s') /\ cpt p' (fst q') (snd q') = cpt p (fst q) (snd q)).
  { intros q Hq. specialize (H _ (in_map (fun q => num (cpt p (fst q) (snd q))) _ _ Hq)).
    apply in_map_iff in H as (q' & E & Hq'). exists q'. split; [exact Hq'|].
    pose proof (sq_pts_in s _ Hs Hq) as [A1 A2]. pose proof (sq_pts_in s' _ Hs' Hq') as [B1 B2].
    apply num_inj; [apply cpt_on; assumption | apply cpt_on; assumption | exact E]. }
  assert (Hpp : p = p').
  { destruct s as [r c]. 
    destruct (L (r, c) ltac:(cbn; auto)) as (q1 & _ & E1). destruct (L (r + 1, c) ltac:(cbn; auto)) as (q2 & _ & E2).
    destruct (L (r, c + 1) ltac:(cbn; auto)) as (q3 & _ & E3). cbn [fst snd] in *.
    clear L H. unfold sq_valid in Hs. cbn [fst snd] in Hs. rewrite !andb_true_iff, !Z.leb_le in Hs.
    unfold cpt in *.
    panels6 p Hp; panels6 p' Hq6; try reflexivity; exfalso;
      repeat match type of E1 with context [?a =? ?b] => let v := eval compute in (a =? b) in change (a =? b) with v in E1 end;
      repeat match type of E2 with context [?a =? ?b] => let v := eval compute in (a =? b) in change (a =? b) with v in E2 end;
      repeat match type of E3 with context [?a =? ?b] => let v := eval compute in (a =? b) in change (a =? b) with v in E3 end;
      cbv iota in E1, E2, E3; inversion E1; inversion E2; inversion E3; lia. }
  subst p'. split; [reflexivity|].
  assert (L2 : incl (sq_pts s) (sq_pts s')).
  { intros [a b] Hq. destruct (L _ Hq) as ([a' b'] & Hq' & E). cbn [fst snd] in E. apply cpt_inj in E as [-> ->]; [exact Hq' | exact Hp]. }
  destruct s as [r c], s' as [r' c'].
  pose proof (L2 (r, c) ltac:(cbn; auto)) as A. pose proof (L2 (r + 1, c + 1) ltac:(cbn; auto)) as B. cbn in A, B.
  repeat destruct A as [A | A]; try contradiction; inversion A; subst;
    repeat destruct B as [B | B]; try contradiction; inversion B; subst; try lia; try reflexivity; f_equal; lia.
Qed.
Lemma quads_distinct m n q q' : nth_error mesh_quads m = Some q -> nth_error mesh_quads n = Some q' ->
  incl (quad_list q) (quad_list q') -> m = n.
Proof.
  set (params := flat_map (fun p => map (fun s => (p, s)) squares) (zrange 6)).
  assert (Em : mesh_quads = map (fun ps => cell_of (fst ps) (snd ps)) params).
  { unfold mesh_quads, params. rewrite flat_map_map. apply flat_map_ext_in. intros i _. rewrite map_map. reflexivity. }
  assert (Hp : NoDup params).
  { unfold params. apply NoDup_flat_map; [apply zrange_NoDup| |].
    - intros i _. apply FinFun.Injective_map_NoDup; [intros a b E; congruence | apply squares_NoDup].
    - intros a b x _ _ Ha Hb. apply in_map_iff in Ha as (? & <- & _), Hb as (? & E & _). congruence. }
  assert (Hv : forall ps, In ps params -> 0 <= fst ps < 6 /\ sq_valid (snd ps) = true).
  { intros ps (p & Hi%in_zrange & H)%in_flat_map. apply in_map_iff in H as (s & <- & Hc%in_squares). auto. }
  rewrite Em. intros Hf Hg Hincl. rewrite nth_error_map in Hf, Hg.
  destruct (nth_error params m) as [[p s]|] eqn:E1; [|discriminate].
  destruct (nth_error params n) as [[p' s']|] eqn:E2; [|discriminate].
  cbn in Hf, Hg. inversion Hf; inversion Hg; subst.
  destruct (Hv _ (nth_error_In _ _ E1)) as [A1 A2]. destruct (Hv _ (nth_error_In _ _ E2)) as [B1 B2]. cbn [fst snd] in *.
  destruct (quad_set_inj p s p' s' A1 B1 A2 B2 Hincl) as [-> ->].
  eapply NoDup_nth_error; [exact Hp | apply nth_error_Some; congruence | congruence].
Qed.

Lemma squares_length : Z.of_nat (length squares) = M * M.
Proof.
  unfold squares.
  assert (G : forall l : list Z, length (flat_map (fun r : Z => map (fun c : Z => (r, c)) (zrange M)) l) = (length l * Z.to_nat M)%nat).
  { induction l as [|a l IH]; [reflexivity|]. cbn [flat_map length]. rewrite app_length, map_length, zrange_length, IH. lia. }
  rewrite G, zrange_length. nia.
Qed.
Lemma quads_length : Z.of_nat (length mesh_quads) = 6 * M * M.
Proof.
  unfold mesh_quads.
  assert (G : forall l, length (flat_map (fun p => map (cell_of p) squares) l) = (length l * length squares)%nat).
  { induction l as [|a l IH]; [reflexivity|]. cbn [flat_map length]. rewrite app_length, map_length, IH. lia. }
  rewrite G, zrange_length, Nat2Z.inj_mul, squares_length. lia.
Qed.

Lemma quads_closed : closed_quad_mesh mesh_quads (6 * M * M + 2).
Proof.
  constructor.
  - intros q (p & s & Hp & Hs & ->)%quad_in. split; [apply quad_NoDup; assumption|].
    rewrite quad_cell by assumption. intros v ([r c] & <- & Hq)%in_map_iff. cbn [fst snd].
    pose proof (sq_pts_in s _ Hs Hq) as [A B]. apply num_range, cpt_on; assumption.
  - intros v Hv. destruct (num_surj v Hv) as (P & HP & <-). destruct (quad_valence P HP) as [-> | ->]; lia.
  - intros q u v (p & s & Hp & Hs & ->)%quad_in Huv.
    destruct (side_points p s u v Hp Hs Huv) as (r & c & r' & c' & I1 & I2 & -> & -> & D). apply side_count; assumption.
  - apply quads_distinct.
  - assert (E : (4 * length mesh_quads = 2 * length (quad_edges mesh_quads))%nat).
    { transitivity (length (flat_map side_pairs mesh_quads)).
      { clear. induction mesh_quads as [|q l IH]; [reflexivity|]. cbn [flat_map length]. rewrite app_length, <- IH.
        destruct q as [[[a b] c] d]. cbn [side_pairs quad_sides map length]. lia. }
      change (quad_edges mesh_quads) with (nodup pair_eq_dec (flat_map side_pairs mesh_quads)).
      apply all_twice. intros x (q & Hq & Hx)%in_flat_map. apply quad_in in Hq as (p & s & Hp & Hs & ->).
      unfold side_pairs in Hx. apply in_map_iff in Hx as ([u v] & <- & Huv). cbn [fst snd].
      destruct (side_points p s u v Hp Hs Huv) as (r & c & r' & c' & I1 & I2 & -> & -> & D).
      rewrite <- (side_count p r c r' c' Hp I1 I2 D). unfold quads_with2.
      assert (G : forall l, incl l mesh_quads ->
         count_occ pair_eq_dec (flat_map side_pairs l) (edge_pair (num (cpt p r c)) (num (cpt p r' c'))) =
         length (filter (fun q => quad_has (num (cpt p r c)) q && quad_has (num (cpt p r' c')) q) l)).
      { induction l as [|q l IH]; intros Hl; [reflexivity|]. cbn [flat_map filter]. rewrite count_occ_app.
        rewrite IH by (intros y Hy; apply Hl; right; exact Hy).
        pose proof (Hl q (or_introl eq_refl)) as Hq. apply quad_in in Hq as (p2 & s2 & Hp2 & Hs2 & ->).
        rewrite count_pair by (apply side_pairs_NoDup, quad_NoDup; assumption).
        pose proof (has_side p2 s2 r c r' c' p Hp I1 I2 D Hp2 Hs2) as Hside.
        destruct (in_dec pair_eq_dec _ (side_pairs (cell_of p2 s2))) as [I | I].
        - rewrite (proj1 Hside I). reflexivity.
        - destruct (quad_has (num (cpt p r c)) (cell_of p2 s2) && quad_has (num (cpt p r' c')) (cell_of p2 s2)) eqn:Eh; [|reflexivity].
          exfalso. apply I, Hside. reflexivity. }
      apply G. intros y Hy. exact Hy. }
    pose proof quads_length. lia.
Qed.
End Cube.

(** ** The theorems *)

(** For every number of cells per panel edge the function accepts, it hands Firedrake a closed
    conforming mesh of quadrilaterals with 6 N^2 cells and 6 N^2 + 2 vertices; three or four cells
    meet at a vertex. *)
Theorem cubed_sphere_closed : forall N degree, 1 <= N -> 1 <= degree ->
  exists qs, cubed_cells N degree = Ok qs /\ Z.of_nat (length qs) = 6 * N * N /\ npoints (N + 1) = 6 * N * N + 2 /\
    closed_quad_mesh qs (npoints (N + 1)) /\
    forall v, 0 <= v < npoints (N + 1) -> quads_with qs v = 3%nat \/ quads_with qs v = 4%nat.
Proof.
  intros N degree HN Hd. exists (mesh_quads N).
  assert (En : npoints (N + 1) = 6 * N * N + 2).
  { unfold npoints. unfold count2. unfold count1. unfold count3. unfold count4. unfold count5. lia. }
  split; [|split; [apply quads_length; exact HN|split; [exact En|rewrite En; split; [apply quads_closed; exact HN|]]]].
  - unfold cubed_cells. destruct (Z.ltb_spec N 1); [lia|]. destruct (Z.ltb_spec degree 1); [lia|]. rewrite cube_cells_eq. reflexivity.
  - intros v Hv. destruct (num_surj N HN v Hv) as (P & HP & <-). apply quad_valence; assumption.
Qed.
Theorem cubed_sphere_arguments : forall N degree,
  (N < 1 -> cubed_cells N degree = Err RuntimeError) /\ (1 <= N -> degree < 1 -> cubed_cells N degree = Err ValueError).
Proof.
  intros N degree. unfold cubed_cells. split.
  - intros H. destruct (Z.ltb_spec N 1); [reflexivity | lia].
  - intros H1 H2. destruct (Z.ltb_spec N 1); [lia|]. destruct (Z.ltb_spec degree 1); [reflexivity | lia].
Qed.
Theorem cubed_sphere_example :
  exists qs, cubed_cells 3 1 = Ok qs /\ length qs = 54%nat /\ nth_error qs 10 = Some (32, 48, 49, 36) /\ quads_with2 qs 32 48 = 2%nat.
Proof. eexists. repeat split; vm_compute; reflexivity. Qed.
