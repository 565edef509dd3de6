(** The icosahedral mesh is, for every refinement, a closed conforming triangulation. *)
From Verif Require Import Base Meshes.
From Coq Require Import ZArith Lia Permutation.
Open Scope Z_scope.

(** ** Specification vocabulary *)
(** the cells a vertex, or a pair of vertices, belongs to *)
Definition has_vertex (v : Z) (f : Z * Z * Z) : bool := existsb (Z.eqb v) (tri_list f).
Definition cells_with (fs : list (Z * Z * Z)) (v : Z) : nat := length (filter (has_vertex v) fs).
Definition cells_with2 (fs : list (Z * Z * Z)) (u v : Z) : nat :=
  length (filter (fun f => has_vertex u f && has_vertex v f) fs).
(** unordered edges as ordered pairs *)
Definition edge_pair (u v : Z) : Z * Z := (Z.min u v, Z.max u v).
Definition cell_edges (f : Z * Z * Z) : list (Z * Z) :=
  let '(a, b, c) := f in [edge_pair a b; edge_pair b c; edge_pair c a].
Lemma pair_eq_dec : forall x y : Z * Z, {x = y} + {x <> y}.
Proof. decide equality; apply Z.eq_dec. Defined.
Definition mesh_edges (fs : list (Z * Z * Z)) : list (Z * Z) := nodup pair_eq_dec (flat_map cell_edges fs).

(** ** Ranges *)
Lemma in_zrange n x : In x (zrange n) <-> 0 <= x < n.
Proof.
  unfold zrange. rewrite in_map_iff. split.
  - intros (m & <- & H%in_seq). lia.
  - intros H. exists (Z.to_nat x). split; [lia|]. apply in_seq. lia.
Qed.
Lemma zrange_length n : length (zrange n) = Z.to_nat n.
Proof. unfold zrange. rewrite map_length, seq_length. reflexivity. Qed.
Lemma zrange_NoDup n : NoDup (zrange n).
Proof.
  unfold zrange. apply FinFun.Injective_map_NoDup; [intros a b; lia | apply seq_NoDup].
Qed.

(** ** Triangular numbers *)
Definition tri (m : Z) : Z := (m - 1) * m / 2.
Lemma tri_twice m : 2 * tri m = (m - 1) * m.
Proof.
  unfold tri. assert (H : ((m - 1) * m) mod 2 = 0).
  { rewrite Z.mul_mod, Zminus_mod by lia.
    pose proof (Z.mod_pos_bound m 2 ltac:(lia)).
    assert (m mod 2 = 0 \/ m mod 2 = 1) as [-> | ->] by lia; reflexivity. }
  pose proof (Z.div_mod ((m - 1) * m) 2 ltac:(lia)). lia.
Qed.
Lemma tri_S m : tri (m + 1) = tri m + m.
Proof. pose proof (tri_twice m). pose proof (tri_twice (m + 1)). nia. Qed.
Lemma tri_mono a b : 1 <= a <= b -> tri a + (b - a) * a <= tri b.
Proof.
  intros. pose proof (tri_twice a). pose proof (tri_twice b).
  assert (0 <= (b - a) * (b - a - 1)) by (destruct (Z.eq_dec a b); nia). nia.
Qed.
Lemma tri_nonneg a : 0 <= a -> 0 <= tri a.
Proof. intros. pose proof (tri_twice a). nia. Qed.

Section Ico.
Variable N : Z.
Hypothesis HN : 1 <= N.

Lemma vpe_eq : vertices_per_edge N = N - 1.
Proof. unfold vertices_per_edge, num_edge_vertices. rewrite Z.mul_comm. apply Z.div_mul. lia. Qed.
Lemma nfv_eq : num_face_vertices N = 20 * tri (N - 1).
Proof.
  unfold num_face_vertices. pose proof (tri_twice (N - 1)).
  replace (20 * (N - 1) * (N - 2)) with (20 * tri (N - 1) * 2) by (replace (N - 2) with (N - 1 - 1) by lia; nia).
  apply Z.div_mul. lia.
Qed.
Lemma vpf_eq : vertices_per_face N = tri (N - 1).
Proof. unfold vertices_per_face. rewrite nfv_eq, Z.mul_comm. apply Z.div_mul. lia. Qed.
Lemma tnv_eq : total_num_vertices N = 10 * N * N + 2.
Proof.
  unfold total_num_vertices, num_base_vertices, num_edge_vertices. rewrite nfv_eq.
  pose proof (tri_twice (N - 1)). nia.
Qed.
Lemma nfp_eq : num_faces_per_panel N = N * N.
Proof.
  unfold num_faces_per_panel.
  replace (N * (N + 1) / 2) with (tri (N + 1)) by (unfold tri; f_equal; lia).
  replace (N * (N - 1) / 2) with (tri N) by (unfold tri; f_equal; lia).
  rewrite tri_S. pose proof (tri_twice N). lia.
Qed.
Lemma row_off j : (N - j - 1) * (N - j) / 2 = tri (N - j).
Proof. reflexivity. Qed.
Lemma row_off' j : (N - j - 2) * (N - j - 1) / 2 = tri (N - j - 1).
Proof. unfold tri. f_equal. lia. Qed.

(** ** Where a vertex lies: a corner, the t-th point of an edge, or inside a panel at row j,
    column k *)
Inductive place := PB (v : Z) | PE (e t : Z) | PF (i j k : Z).
Definition place_eq_dec : forall p q : place, {p = q} + {p <> q}.
Proof. decide equality; apply Z.eq_dec. Defined.

Definition idx (p : place) : Z :=
  match p with
  | PB v => v
  | PE e t => 12 + e * (N - 1) + (t - 1)
  | PF i j k => 12 + 30 * (N - 1) + i * tri (N - 1) + (tri (N - 1) - tri (N - j) + k - 1)
  end.
Definition valid (p : place) : Prop :=
  match p with
  | PB v => 0 <= v < 12
  | PE e t => 0 <= e < 30 /\ 1 <= t <= N - 1
  | PF i j k => 0 <= i < 20 /\ 1 <= j /\ 1 <= k /\ j + k <= N - 1
  end.

Lemma face_off j k : 1 <= j -> 1 <= k -> j + k <= N - 1 ->
  0 <= tri (N - 1) - tri (N - j) + k - 1 < tri (N - 1).
Proof.
  intros. pose proof (tri_mono (N - j) (N - 1) ltac:(lia)).
  assert (tri (N - j) = tri (N - j - 1) + (N - j - 1)) by (rewrite <- tri_S; f_equal; lia).
  pose proof (tri_nonneg (N - j - 1) ltac:(lia)). nia.
Qed.
Lemma div_unique2 a b c d m : 0 <= b < m -> 0 <= d < m -> a * m + b = c * m + d -> a = c /\ b = d.
Proof. intros. assert (a = c) by nia. subst. lia. Qed.

Lemma idx_PE_range e t : valid (PE e t) -> 12 <= idx (PE e t) < 12 + 30 * (N - 1).
Proof.
  intros [[H1 H2] H3]. unfold idx. assert (0 <= e * (N - 1)) by (apply Z.mul_nonneg_nonneg; lia).
  assert (0 <= (29 - e) * (N - 1)) by (apply Z.mul_nonneg_nonneg; lia). lia.
Qed.
Lemma idx_PF_range i j k : valid (PF i j k) ->
  12 + 30 * (N - 1) <= idx (PF i j k) < 10 * N * N + 2.
Proof.
  intros (Hi & Hj & Hk & Hs). unfold idx. pose proof (face_off j k Hj Hk Hs). pose proof (tri_twice (N - 1)).
  assert (0 <= i * tri (N - 1)) by (apply Z.mul_nonneg_nonneg; lia).
  assert (0 <= (19 - i) * tri (N - 1)) by (apply Z.mul_nonneg_nonneg; lia). lia.
Qed.
Lemma count_bound : 12 + 30 * (N - 1) <= 10 * N * N + 2.
Proof. pose proof (tri_nonneg (N - 1) ltac:(lia)). pose proof (tri_twice (N - 1)). nia. Qed.
Lemma idx_range p : valid p -> 0 <= idx p < 10 * N * N + 2.
Proof.
  pose proof count_bound.
  destruct p as [v | e t | i j k]; intros H0.
  - unfold valid, idx in *. lia.
  - pose proof (idx_PE_range e t H0). lia.
  - pose proof (idx_PF_range i j k H0). lia.
Qed.
Lemma idx_inj p q : valid p -> valid q -> idx p = idx q -> p = q.
Proof.
  destruct p as [v | e t | i j k], q as [v' | e' t' | i' j' k']; intros Hp Hq E;
    try (pose proof (idx_PE_range _ _ Hp)); try (pose proof (idx_PE_range _ _ Hq));
    try (pose proof (idx_PF_range _ _ _ Hp)); try (pose proof (idx_PF_range _ _ _ Hq)).
  - unfold idx in E. subst. reflexivity.
  - unfold valid, idx in *. lia.
  - unfold valid, idx in *. nia.
  - unfold valid, idx in *. lia.
  - unfold valid, idx in *. destruct (div_unique2 e (t - 1) e' (t' - 1) (N - 1)) as [-> Ht]; try lia. f_equal. lia.
  - lia.
  - unfold valid, idx in *. nia.
  - lia.
  - unfold valid, idx in *. destruct Hp as (Hi & Hj & Hk & Hs), Hq as (Hi' & Hj' & Hk' & Hs').
    pose proof (face_off j k Hj Hk Hs). pose proof (face_off j' k' Hj' Hk' Hs').
    destruct (div_unique2 i (tri (N - 1) - tri (N - j) + k - 1) i' (tri (N - 1) - tri (N - j') + k' - 1) (tri (N - 1)))
      as [-> Ho]; try lia.
    assert (j = j').
    { destruct (Z.lt_trichotomy j j') as [L | [L | L]]; [|exact L|].
      - pose proof (tri_mono (N - j') (N - j - 1) ltac:(lia)).
        assert (tri (N - j) = tri (N - j - 1) + (N - j - 1)) by (rewrite <- tri_S; f_equal; lia). nia.
      - pose proof (tri_mono (N - j) (N - j' - 1) ltac:(lia)).
        assert (tri (N - j') = tri (N - j' - 1) + (N - j' - 1)) by (rewrite <- tri_S; f_equal; lia). nia. }
    subst j'. f_equal. lia.
Qed.

(** every vertex number is the number of a place *)
Lemma idx_surj v : 0 <= v < 10 * N * N + 2 -> exists p, valid p /\ idx p = v.
Proof.
  intros Hv. destruct (Z_lt_le_dec v 12) as [L | L].
  { exists (PB v). unfold valid, idx. lia. }
  destruct (Z_lt_le_dec v (12 + 30 * (N - 1))) as [L2 | L2].
  { assert (N - 1 > 0) by lia.
    exists (PE ((v - 12) / (N - 1)) ((v - 12) mod (N - 1) + 1)). unfold valid, idx.
    pose proof (Z.div_mod (v - 12) (N - 1) ltac:(lia)). pose proof (Z.mod_pos_bound (v - 12) (N - 1) ltac:(lia)).
    assert (0 <= (v - 12) / (N - 1) < 30) by (split; [apply Z.div_pos; lia | apply Z.div_lt_upper_bound; lia]).
    set (q := (v - 12) / (N - 1)) in *. set (m := (v - 12) mod (N - 1)) in *. split; [lia|].
    replace (q * (N - 1)) with ((N - 1) * q) by lia. lia. }
  set (T := tri (N - 1)). set (w := v - (12 + 30 * (N - 1))).
  assert (Hw : 0 <= w < 20 * T) by (unfold w, T; pose proof (tri_twice (N - 1)); nia).
  assert (HT : 0 < T) by nia.
  pose proof (Z.div_mod w T ltac:(lia)) as Hdm. pose proof (Z.mod_pos_bound w T HT) as Hm.
  assert (Hi : 0 <= w / T < 20) by (split; [apply Z.div_pos; lia | apply Z.div_lt_upper_bound; lia]).
  (* the row *)
  assert (Hrow : forall n o, (0 <= n)%Z -> 0 <= o < T - tri (N - 1 - n) -> n <= N - 2 ->
            exists j k, 1 <= j /\ 1 <= k /\ j + k <= N - 1 /\ T - tri (N - j) + k - 1 = o).
  { intros n o Hn. revert o. pattern n. apply natlike_ind; [| |exact Hn].
    - intros o Ho _. unfold T in Ho. rewrite Z.sub_0_r in Ho. lia.
    - clear n Hn. intros n Hn IH o Ho Hle.
      destruct (Z_lt_le_dec o (T - tri (N - 1 - n))) as [Lo | Lo].
      + apply IH; lia.
      + exists (n + 1), (o - (T - tri (N - 1 - n)) + 1).
        assert (tri (N - 1 - n) = tri (N - 1 - Z.succ n) + (N - 1 - Z.succ n)) by (rewrite <- tri_S; f_equal; lia).
        replace (N - (n + 1)) with (N - 1 - n) by lia. lia. }
  destruct (Hrow (N - 2) (w mod T)) as (j & k & Hj & Hk & Hs & Ho); try lia.
  { destruct (Z.eq_dec N 1) as [-> | ]; [|lia]. cbn in HT. lia. }
  { replace (N - 1 - (N - 2)) with 1 by lia. cbn. lia. }
  exists (PF (w / T) j k). split; [unfold valid; lia|]. unfold idx. fold T. rewrite Ho. unfold w in *. lia.
Qed.

(** ** The points of a panel *)
Definition place_of (i : Z) (p : Z * Z) : place :=
  let '(j, k) := p in
  let '(a, b, c) := panel i in
  let '(e0, e1, e2) := edges_of i in
  if j =? 0 then (if k =? 0 then PB a else if k =? N then PB b else PE e0 k)
  else if j =? N then PB c
  else if k =? 0 then PE e1 j
  else if j + k =? N then PE e2 j
  else PF i j k.
Definition loc (i : Z) (P : place) : option (Z * Z) :=
  let '(a, b, c) := panel i in
  let '(e0, e1, e2) := edges_of i in
  match P with
  | PB v => if v =? a then Some (0, 0) else if v =? b then Some (0, N) else if v =? c then Some (N, 0) else None
  | PE e t => if e =? e0 then Some (0, t) else if e =? e1 then Some (t, 0) else if e =? e2 then Some (t, N - t) else None
  | PF i' j k => if i =? i' then Some (j, k) else None
  end.
Definition inpanel (p : Z * Z) : Prop := 0 <= fst p /\ 0 <= snd p /\ fst p + snd p <= N.

(** facts about the tables *)
Lemma panel_table i : 0 <= i < 20 ->
  let '(a, b, c) := panel i in let '(e0, e1, e2) := edges_of i in
  0 <= a < b /\ b < c < 12 /\ 0 <= e0 < e1 /\ e1 < e2 < 30 /\
  edge_of e0 = (a, b) /\ edge_of e1 = (a, c) /\ edge_of e2 = (b, c).
Proof.
  intros H.
  assert (E : forallb (fun i =>
    let '(a, b, c) := panel i in let '(e0, e1, e2) := edges_of i in
    (0 <=? a) && (a <? b) && (b <? c) && (c <? 12) && (0 <=? e0) && (e0 <? e1) && (e1 <? e2) && (e2 <? 30) &&
    (fst (edge_of e0) =? a) && (snd (edge_of e0) =? b) && (fst (edge_of e1) =? a) && (snd (edge_of e1) =? c) &&
    (fst (edge_of e2) =? b) && (snd (edge_of e2) =? c)) (zrange 20) = true) by (vm_compute; reflexivity).
  rewrite forallb_forall in E. specialize (E i (proj2 (in_zrange 20 i) H)).
  destruct (panel i) as [[a b] c], (edges_of i) as [[e0 e1] e2].
  destruct (edge_of e0) as [p0 q0], (edge_of e1) as [p1 q1], (edge_of e2) as [p2 q2]. cbn in E.
  repeat (apply andb_prop in E as [E ?]).
  repeat match goal with Hx : (_ <=? _) = true |- _ => apply Z.leb_le in Hx
         | Hx : (_ <? _) = true |- _ => apply Z.ltb_lt in Hx | Hx : (_ =? _) = true |- _ => apply Z.eqb_eq in Hx end.
  subst. repeat split; lia.
Qed.

Ltac eqbs := repeat match goal with
  | |- context [?a =? ?b] => destruct (Z.eqb_spec a b) end.
Lemma place_valid i p : 0 <= i < 20 -> inpanel p -> valid (place_of i p).
Proof.
  intros Hi Hp. pose proof (panel_table i Hi) as T. destruct p as [j k]. unfold place_of, inpanel in *. cbn in Hp.
  destruct (panel i) as [[a b] c], (edges_of i) as [[e0 e1] e2].
  eqbs; cbn; lia.
Qed.
Lemma loc_place i p : 0 <= i < 20 -> inpanel p -> loc i (place_of i p) = Some p.
Proof.
  intros Hi Hp. pose proof (panel_table i Hi) as T. destruct p as [j k]. unfold place_of, loc, inpanel in *. cbn in Hp.
  destruct (panel i) as [[a b] c], (edges_of i) as [[e0 e1] e2].
  eqbs; cbn; eqbs; try lia; f_equal; f_equal; lia.
Qed.
Lemma place_loc i P p : 0 <= i < 20 -> valid P -> loc i P = Some p -> inpanel p /\ place_of i p = P.
Proof.
  intros Hi HP. pose proof (panel_table i Hi) as T. unfold place_of, loc, inpanel in *.
  destruct (panel i) as [[a b] c], (edges_of i) as [[e0 e1] e2].
  destruct P as [v | e t | i' j k]; cbn in HP; eqbs; intros E; inversion E; subst; clear E; cbn;
    (split; [lia|]); eqbs; try lia; try reflexivity; f_equal; lia.
Qed.

(** ** The small triangles of a panel *)
Definition lcell := (bool * Z * Z)%type.
Definition lvalid (c : lcell) : bool :=
  let '(o, j, k) := c in (0 <=? j) && (0 <=? k) && (j + k <=? if o : bool then N - 1 else N - 2).
Definition lverts (c : lcell) : (Z * Z) * (Z * Z) * (Z * Z) :=
  let '(o, j, k) := c in
  if o : bool then ((j, k), (j, k + 1), (j + 1, k)) else ((j, k + 1), (j + 1, k + 1), (j + 1, k)).
Definition lvl (c : lcell) : list (Z * Z) := let '(p, q, r) := lverts c in [p; q; r].
Definition local_cells : list lcell :=
  flat_map (fun j => map (fun k => (true, j, k)) (zrange (N - j)) ++
    (if j <? N - 1 then map (fun k => (false, j, k)) (zrange (N - j - 1)) else [])) (zrange N).

Lemma in_local c : In c local_cells <-> lvalid c = true.
Proof.
  destruct c as [[o j] k]. unfold local_cells, lvalid. rewrite in_flat_map. rewrite !andb_true_iff, !Z.leb_le. split.
  - intros (x & Hx%in_zrange & H). apply in_app_iff in H as [H | H].
    + apply in_map_iff in H as (y & E & Hy%in_zrange). inversion E; subst. lia.
    + destruct (Z.ltb_spec x (N - 1)); [|contradiction].
      apply in_map_iff in H as (y & E & Hy%in_zrange). inversion E; subst. lia.
  - intros H. exists j. split; [apply in_zrange; destruct o; lia|]. apply in_app_iff. destruct o.
    + left. apply in_map_iff. exists k. split; [reflexivity|]. apply in_zrange. lia.
    + right. destruct (Z.ltb_spec j (N - 1)); [|lia]. apply in_map_iff. exists k. split; [reflexivity|].
      apply in_zrange. lia.
Qed.
Lemma NoDup_flat_map {A B} (f : A -> list B) (l : list A) :
  NoDup l -> (forall a, In a l -> NoDup (f a)) ->
  (forall a b x, In a l -> In b l -> In x (f a) -> In x (f b) -> a = b) -> NoDup (flat_map f l).
Proof.
  induction l as [|a l IH]; cbn; intros Hl Hf Hd; [constructor|].
  inversion Hl; subst. 
  assert (forall x, In x (f a) -> ~ In x (flat_map f l)).
  { intros x Hx (b & Hb & Hxb)%in_flat_map. apply H1.
    rewrite (Hd a b x) by auto. exact Hb. }
  assert (NoDup (f a)) by auto. assert (NoDup (flat_map f l)) by (apply IH; eauto).
  clear - H H0 H3. induction (f a) as [|x r IHr]; cbn; [exact H3|].
  inversion H0; subst. constructor; [|apply IHr; [intros; apply H; right|]; assumption].
  rewrite in_app_iff. intros [|]; [contradiction|]. apply (H x); [left; reflexivity | assumption].
Qed.
Lemma local_NoDup : NoDup local_cells.
Proof.
  unfold local_cells. apply NoDup_flat_map; [apply zrange_NoDup| |].
  - intros j _.
    assert (A : forall o n, NoDup (map (fun k => (o, j, k) : lcell) (zrange n))).
    { intros. apply FinFun.Injective_map_NoDup; [intros a b E; inversion E; reflexivity | apply zrange_NoDup]. }
    assert (B : forall l, NoDup l -> (forall c, In c l -> fst (fst c) = false) ->
                 NoDup (map (fun k => (true, j, k) : lcell) (zrange (N - j)) ++ l)).
    { intros l Hl Hc. specialize (A true (N - j)). induction (zrange (N - j)) as [|x r IH]; cbn; [exact Hl|].
      cbn in A. inversion A; subst. constructor; [|apply IH; assumption].
      rewrite in_app_iff. intros [|Hx]; [contradiction|]. apply Hc in Hx. discriminate Hx. }
    apply B; [destruct (j <? N - 1); [apply A | constructor]|].
    intros c Hc. destruct (j <? N - 1); [|contradiction]. apply in_map_iff in Hc as (? & <- & _). reflexivity.
  - intros a b x _ _ Ha Hb. apply in_app_iff in Ha, Hb.
    assert (R : forall j x, (In x (map (fun k => (true, j, k) : lcell) (zrange (N - j))) \/
                  In x (if j <? N - 1 then map (fun k => (false, j, k) : lcell) (zrange (N - j - 1)) else [])) ->
                  snd (fst x) = j).
    { intros j y [H | H]; [|destruct (j <? N - 1); [|contradiction]];
        apply in_map_iff in H as (? & <- & _); reflexivity. }
    rewrite <- (R a x Ha), <- (R b x Hb). reflexivity.
Qed.

(** the number of cells: N^2 per panel *)
Lemma local_count : Z.of_nat (length local_cells) = N * N.
Proof.
  unfold local_cells.
  assert (G : forall n : nat, Z.of_nat n <= N ->
     Z.of_nat (length (flat_map (fun j => map (fun k => (true, j, k) : lcell) (zrange (N - j)) ++
       (if j <? N - 1 then map (fun k => (false, j, k) : lcell) (zrange (N - j - 1)) else [])) (map Z.of_nat (seq 0 n))))
     = Z.of_nat n * (2 * N - Z.of_nat n)).
  { induction n as [|n IH]; intros H; [reflexivity|].
    rewrite seq_S, map_app, flat_map_app, app_length, Nat2Z.inj_add, IH by lia. cbn [map flat_map plus].
    rewrite app_nil_r, app_length, map_length, zrange_length.
    destruct (Z.ltb_spec (Z.of_nat n) (N - 1)); rewrite ?map_length, ?zrange_length; cbn [length]; nia. }
  unfold zrange at 3. rewrite G by lia. nia.
Qed.

Definition face_ids (i : Z) (c : lcell) : Z * Z * Z :=
  let '(p, q, r) := lverts c in (idx (place_of i p), idx (place_of i q), idx (place_of i r)).

Lemma edge_index_eq e x : 0 <= x < N - 1 -> edge_index N e x = Some (idx (PE e (x + 1))).
Proof.
  intros Hx. unfold edge_index, range_get. rewrite vpe_eq. unfold num_base_vertices.
  destruct (Z.ltb_spec x 0); [lia|].
  rewrite Z.max_r by lia.
  destruct (Z.leb_spec 0 x); [|lia]. destruct (Z.ltb_spec x (12 + (e + 1) * (N - 1) - (12 + e * (N - 1)))); [|lia].
  cbn. f_equal. lia.
Qed.
Lemma face_index_eq i j k : 1 <= j -> 1 <= k -> j + k <= N - 1 ->
  face_index N i (tri (N - 1) - tri (N - j) + k - 1) = Some (idx (PF i j k)).
Proof.
  intros Hj Hk Hs. pose proof (face_off j k Hj Hk Hs). unfold face_index, range_get. rewrite vpf_eq.
  unfold num_base_vertices, num_edge_vertices.
  set (x := tri (N - 1) - tri (N - j) + k - 1) in *. set (T := tri (N - 1)) in *.
  destruct (Z.ltb_spec x 0); [lia|]. rewrite Z.max_r by nia.
  destruct (Z.leb_spec 0 x); [|lia]. destruct (Z.ltb_spec x (12 + 30 * (N - 1) + (i + 1) * T - (12 + 30 * (N - 1) + i * T))); [|nia].
  reflexivity.
Qed.

Lemma face_index_at i j k x : x = tri (N - 1) - tri (N - j) + k - 1 -> 1 <= j -> 1 <= k -> j + k <= N - 1 ->
  face_index N i x = Some (idx (PF i j k)).
Proof. intros ->. apply face_index_eq. Qed.
Ltac fidx j k := repeat match goal with |- context [face_index N ?i ?x] =>
  first [rewrite (face_index_at i j k x) by lia | rewrite (face_index_at i j (k + 1) x) by lia
        | rewrite (face_index_at i (j + 1) k x) by lia | rewrite (face_index_at i (j + 1) (k + 1) x) by lia] end.
Lemma up_face_eq i j k : 2 <= N -> 0 <= i < 20 -> 0 <= j -> 0 <= k -> j + k <= N - 1 ->
  up_face N i j k = Some (face_ids i (true, j, k)).
Proof.
  intros H2 Hi Hj Hk Hs. unfold up_face, face_ids, lverts, place_of.
  rewrite vpf_eq, row_off, row_off'.
  destruct (panel i) as [[a b] c], (edges_of i) as [[e0 e1] e2].
  replace (tri (N - j - 1)) with (tri (N - (j + 1))) by (f_equal; lia).
  eqbs; try lia; rewrite ?edge_index_eq by lia; fidx j k; cbn [tri3];
    (apply f_equal; apply f_equal2; [apply f_equal2|]); unfold idx; lia.
Qed.
Lemma down_face_eq i j k : 2 <= N -> 0 <= i < 20 -> 0 <= j -> 0 <= k -> j + k <= N - 2 ->
  down_face N i j k = Some (face_ids i (false, j, k)).
Proof.
  intros H2 Hi Hj Hk Hs. unfold down_face, face_ids, lverts, place_of.
  rewrite vpf_eq, row_off, row_off'.
  destruct (panel i) as [[a b] c], (edges_of i) as [[e0 e1] e2].
  replace (tri (N - j - 1)) with (tri (N - (j + 1))) by (f_equal; lia).
  eqbs; try lia; rewrite ?edge_index_eq by lia; fidx j k; cbn [tri3];
    (apply f_equal; apply f_equal2; [apply f_equal2|]); unfold idx; lia.
Qed.
Definition mesh_faces : list (Z * Z * Z) := flat_map (fun i => map (face_ids i) local_cells) (zrange 20).

Lemma sequence_some {A} (l : list A) : sequence (map Some l) = Some l.
Proof. induction l as [|a l IH]; [reflexivity|]. cbn. rewrite IH. reflexivity. Qed.

Lemma flat_map_ext_in {A B} (f g : A -> list B) l :
  (forall a, In a l -> f a = g a) -> flat_map f l = flat_map g l.
Proof. induction l as [|a l IH]; cbn; intros H; [reflexivity|]. rewrite H, IH; auto. Qed.
Lemma flat_map_map {A B C} (f : A -> list B) (g : B -> C) l :
  map g (flat_map f l) = flat_map (fun a => map g (f a)) l.
Proof. induction l as [|a l IH]; cbn; [reflexivity|]. rewrite map_app, IH. reflexivity. Qed.

Lemma panel_faces_eq i : 2 <= N -> 0 <= i < 20 ->
  panel_faces N i = map (fun c => Some (face_ids i c)) local_cells.
Proof.
  intros H2 Hi. unfold panel_faces, local_cells. rewrite flat_map_map. apply flat_map_ext_in.
  intros j Hj%in_zrange. rewrite map_app. f_equal.
  - rewrite map_map. apply map_ext_in. intros k Hk%in_zrange. apply up_face_eq; lia.
  - destruct (Z.ltb_spec j (N - 1)); [|reflexivity].
    rewrite map_map. apply map_ext_in. intros k Hk%in_zrange. apply down_face_eq; lia.
Qed.

Lemma all_faces_eq : all_faces N = Some mesh_faces.
Proof.
  unfold all_faces, mesh_faces. destruct (Z.ltb_spec 1 N) as [L | L].
  - rewrite (flat_map_ext_in (panel_faces N) (fun i => map Some (map (face_ids i) local_cells))).
    + rewrite <- flat_map_map. apply sequence_some.
    + intros i Hi%in_zrange. rewrite panel_faces_eq by lia. rewrite map_map. reflexivity.
  - assert (E : N = 1) by lia. unfold face_ids, place_of, local_cells, idx. rewrite E. reflexivity.
Qed.

(** ** Counting *)
Definition nadd (a b : nat) : nat := (a + b)%nat.
Definition nsum (l : list nat) : nat := fold_right nadd 0%nat l.
Lemma filter_length_sum {A B} (P : B -> bool) (f : A -> list B) l :
  length (filter P (flat_map f l)) = nsum (map (fun a => length (filter P (f a))) l).
Proof.
  induction l as [|a l IH]; cbn; [reflexivity|]. rewrite filter_app, app_length, IH. reflexivity.
Qed.
Lemma filter_map_length {A B} (P : B -> bool) (f : A -> B) l :
  length (filter P (map f l)) = length (filter (fun a => P (f a)) l).
Proof. induction l as [|a l IH]; cbn; [reflexivity|]. destruct (P (f a)); cbn; rewrite IH; reflexivity. Qed.

Definition pt_eqb (p q : Z * Z) : bool := (fst p =? fst q) && (snd p =? snd q).
Lemma pt_eqb_spec p q : pt_eqb p q = true <-> p = q.
Proof.
  destruct p, q. unfold pt_eqb. cbn. rewrite andb_true_iff, !Z.eqb_eq.
  split; [intros [-> ->]; reflexivity | intros E; inversion E; auto].
Qed.
Definition lhas (p : Z * Z) (c : lcell) : bool := existsb (pt_eqb p) (lvl c).
Definition ohas (p : option (Z * Z)) (c : lcell) : bool := match p with Some p => lhas p c | None => false end.

Lemma lverts_inpanel c p : lvalid c = true -> In p (lvl c) -> inpanel p.
Proof.
  destruct c as [[o j] k]. unfold lvalid, lvl, lverts, inpanel. rewrite !andb_true_iff, !Z.leb_le.
  destruct o; cbn; intros H [<- | [<- | [<- | []]]]; cbn; lia.
Qed.
Lemma has_vertex_local i c P : 0 <= i < 20 -> lvalid c = true -> valid P ->
  has_vertex (idx P) (face_ids i c) = ohas (loc i P) c.
Proof.
  intros Hi Hc HP. apply eq_true_iff_eq. unfold has_vertex, ohas.
  assert (EL : tri_list (face_ids i c) = map (fun p => idx (place_of i p)) (lvl c)).
  { unfold face_ids, lvl. destruct (lverts c) as [[p q] r]. reflexivity. }
  rewrite EL, existsb_exists. split.
  - intros (x & Hx & E%Z.eqb_eq). apply in_map_iff in Hx as (p & <- & Hp).
    pose proof (lverts_inpanel c p Hc Hp) as Hin.
    apply idx_inj in E; [|assumption | apply place_valid; assumption]. subst P.
    rewrite loc_place by assumption. unfold lhas. apply existsb_exists. exists p.
    split; [assumption | apply pt_eqb_spec; reflexivity].
  - destruct (loc i P) as [p|] eqn:El; [|discriminate]. intros H. unfold lhas in H.
    apply existsb_exists in H as (q & Hq & ->%pt_eqb_spec).
    destruct (place_loc i P q Hi HP El) as [Hin E]. exists (idx (place_of i q)).
    split; [apply in_map_iff; exists q; auto | rewrite E; apply Z.eqb_refl].
Qed.

(** the six triangles around a point of the lattice *)
Definition six (p : Z * Z) : list lcell :=
  let '(j, k) := p in
  [(true, j, k); (true, j, k - 1); (true, j - 1, k); (false, j, k - 1); (false, j - 1, k - 1); (false, j - 1, k)].
Lemma six_spec p c : In c (six p) <-> lhas p c = true.
Proof.
  destruct p as [j k], c as [[o x] y]. unfold six, lhas, lvl, lverts.
  split.
  - cbn. intros H. apply existsb_exists.
    repeat destruct H as [H | H]; try contradiction; injection H as <- <- <-; exists (j, k);
      (split; [cbn | apply pt_eqb_spec; reflexivity]);
      repeat first [left; f_equal; lia | right].
  - intros (q & Hq & <-%pt_eqb_spec)%existsb_exists. destruct o; cbn in Hq; cbn;
      repeat destruct Hq as [Hq | Hq]; try contradiction; inversion Hq; subst;
      repeat first [left; repeat f_equal; lia | right].
Qed.
Lemma six_NoDup p : NoDup (six p).
Proof.
  destruct p as [j k]. unfold six. repeat constructor; cbn; intros H;
    repeat destruct H as [H | H]; try contradiction; inversion H; lia.
Qed.
Lemma filter_local (Q : lcell -> bool) p :
  length (filter (fun c => lhas p c && Q c) local_cells) = length (filter (fun c => lvalid c && Q c) (six p)).
Proof.
  apply Permutation_length. apply NoDup_Permutation.
  - apply NoDup_filter, local_NoDup.
  - apply NoDup_filter, six_NoDup.
  - intros c. rewrite !filter_In, !andb_true_iff, in_local, six_spec. tauto.
Qed.
Lemma filter_none {A} (l : list A) : filter (fun _ => false) l = [].
Proof. induction l; auto. Qed.

(** cells of panel i around one place, and around two *)
Definition pcount (P : option (Z * Z)) : nat :=
  match P with Some p => length (filter lvalid (six p)) | None => 0%nat end.
Definition pcount2 (P Q : option (Z * Z)) : nat :=
  match P, Q with Some p, Some q => length (filter (fun c => lvalid c && lhas q c) (six p)) | _, _ => 0%nat end.

Lemma cells_with_eq P : valid P ->
  cells_with mesh_faces (idx P) = nsum (map (fun i => pcount (loc i P)) (zrange 20)).
Proof.
  intros HP. unfold cells_with, mesh_faces. rewrite filter_length_sum. f_equal. apply map_ext_in.
  intros i Hi%in_zrange. rewrite filter_map_length.
  rewrite (filter_ext_in _ (ohas (loc i P))).
  2:{ intros c Hc%in_local. apply has_vertex_local; assumption. }
  destruct (loc i P) as [p|]; cbn [ohas pcount]; [|rewrite filter_none; reflexivity].
  rewrite (filter_ext (fun c => lhas p c) (fun c => lhas p c && true)) by (intros; rewrite andb_true_r; reflexivity).
  rewrite filter_local. f_equal. apply filter_ext. intros. apply andb_true_r.
Qed.
Lemma cells_with2_eq P Q : valid P -> valid Q ->
  cells_with2 mesh_faces (idx P) (idx Q) = nsum (map (fun i => pcount2 (loc i P) (loc i Q)) (zrange 20)).
Proof.
  intros HP HQ. unfold cells_with2, mesh_faces. rewrite filter_length_sum. f_equal. apply map_ext_in.
  intros i Hi%in_zrange. rewrite filter_map_length.
  rewrite (filter_ext_in _ (fun c => ohas (loc i P) c && ohas (loc i Q) c)).
  2:{ intros c Hc%in_local. rewrite !has_vertex_local by assumption. reflexivity. }
  destruct (loc i P) as [p|]; cbn [ohas pcount2]; [|rewrite filter_none; reflexivity].
  destruct (loc i Q) as [q|]; cbn [ohas]; [apply filter_local|].
  rewrite (filter_ext _ (fun _ => false)) by (intros; apply andb_false_r). rewrite filter_none. reflexivity.
Qed.

Ltac bools := repeat match goal with
  | |- context [?a <=? ?b] => first [replace (a <=? b) with true by (symmetry; apply Z.leb_le; lia)
                                   | replace (a <=? b) with false by (symmetry; apply Z.leb_gt; lia)]
  | |- context [?a =? ?b] => first [replace (a =? b) with true by (symmetry; apply Z.eqb_eq; lia)
                                   | replace (a =? b) with false by (symmetry; apply Z.eqb_neq; lia)]
  end.
(** cells of a panel at a corner, on a side, inside *)
Lemma at_corner p : p = (0, 0) \/ p = (0, N) \/ p = (N, 0) -> pcount (Some p) = 1%nat.
Proof.
  intros [-> | [-> | ->]]; unfold pcount, six, filter, lvalid; bools; reflexivity.
Qed.
Lemma at_side p t : 1 <= t <= N - 1 -> p = (0, t) \/ p = (t, 0) \/ p = (t, N - t) -> pcount (Some p) = 3%nat.
Proof.
  intros Ht [-> | [-> | ->]]; unfold pcount, six, filter, lvalid; bools; reflexivity.
Qed.
Lemma at_inside j k : 1 <= j -> 1 <= k -> j + k <= N - 1 -> pcount (Some (j, k)) = 6%nat.
Proof. intros. unfold pcount, six, filter, lvalid; bools; reflexivity. Qed.

Definition b2n (b : bool) : nat := if b then 1 else 0.
(** cells on both sides of a segment, in each of the three directions *)
Lemma along0 j k : pcount2 (Some (j, k)) (Some (j, k + 1)) =
  (b2n (lvalid (true, j, k)) + b2n (lvalid (false, (j - 1)%Z, k)))%nat.
Proof.
  unfold pcount2, six, filter, lhas, lvl, lverts, existsb, pt_eqb, fst, snd.
  repeat match goal with |- context [?a =? ?b] =>
    first [replace (a =? b) with true by (symmetry; apply Z.eqb_eq; lia)
          | replace (a =? b) with false by (symmetry; apply Z.eqb_neq; lia)] end.
  cbn [andb orb]. rewrite ?andb_true_r, ?andb_false_r.
  destruct (lvalid (true, j, k)), (lvalid (false, j - 1, k)); reflexivity.
Qed.
Lemma along1 j k : pcount2 (Some (j, k)) (Some (j + 1, k)) =
  (b2n (lvalid (true, j, k)) + b2n (lvalid (false, j, (k - 1)%Z)))%nat.
Proof.
  unfold pcount2, six, filter, lhas, lvl, lverts, existsb, pt_eqb, fst, snd.
  repeat match goal with |- context [?a =? ?b] =>
    first [replace (a =? b) with true by (symmetry; apply Z.eqb_eq; lia)
          | replace (a =? b) with false by (symmetry; apply Z.eqb_neq; lia)] end.
  cbn [andb orb]. rewrite ?andb_true_r, ?andb_false_r.
  destruct (lvalid (true, j, k)), (lvalid (false, j, k - 1)); reflexivity.
Qed.
Lemma along2 j k : pcount2 (Some (j, k)) (Some (j + 1, k - 1)) =
  (b2n (lvalid (true, j, (k - 1)%Z)) + b2n (lvalid (false, j, (k - 1)%Z)))%nat.
Proof.
  unfold pcount2, six, filter, lhas, lvl, lverts, existsb, pt_eqb, fst, snd.
  repeat match goal with |- context [?a =? ?b] =>
    first [replace (a =? b) with true by (symmetry; apply Z.eqb_eq; lia)
          | replace (a =? b) with false by (symmetry; apply Z.eqb_neq; lia)] end.
  cbn [andb orb]. rewrite ?andb_true_r, ?andb_false_r.
  destruct (lvalid (true, j, k - 1)), (lvalid (false, j, k - 1)); reflexivity.
Qed.
Lemma side0 t t' : t' = t + 1 -> 0 <= t <= N - 1 -> pcount2 (Some (0, t)) (Some (0, t')) = 1%nat.
Proof. intros -> H. rewrite along0. unfold lvalid. bools. reflexivity. Qed.
Lemma side1 t t' : t' = t + 1 -> 0 <= t <= N - 1 -> pcount2 (Some (t, 0)) (Some (t', 0)) = 1%nat.
Proof. intros -> H. rewrite along1. unfold lvalid. bools. reflexivity. Qed.
Lemma side2 t t' s s' : t' = t + 1 -> s = N - t -> s' = N - t' -> 0 <= t <= N - 1 ->
  pcount2 (Some (t, s)) (Some (t', s')) = 1%nat.
Proof. intros -> -> -> H. replace (N - (t + 1)) with (N - t - 1) by lia. rewrite along2. unfold lvalid. bools. reflexivity. Qed.
Lemma inner0 j k j' k' : k' = k + 1 -> j' = j -> 1 <= j -> 0 <= k -> j + k + 1 <= N -> pcount2 (Some (j, k)) (Some (j', k')) = 2%nat.
Proof. intros -> -> ???. rewrite along0. unfold lvalid. bools. reflexivity. Qed.
Lemma inner1 j k j' k' : j' = j + 1 -> k' = k -> 1 <= k -> 0 <= j -> j + k + 1 <= N -> pcount2 (Some (j, k)) (Some (j', k')) = 2%nat.
Proof. intros -> -> ???. rewrite along1. unfold lvalid. bools. reflexivity. Qed.
Lemma inner2 j k j' k' : j' = j + 1 -> k' = k - 1 -> 1 <= k -> 0 <= j -> j + k <= N - 1 ->
  pcount2 (Some (j, k)) (Some (j', k')) = 2%nat.
Proof. intros -> -> ???. rewrite along2. unfold lvalid. bools. reflexivity. Qed.

(** ** The valence of a vertex *)
Lemma panel_cases i (P : Z -> Prop) : (forall n, In n [0;1;2;3;4;5;6;7;8;9;10;11;12;13;14;15;16;17;18;19] -> P n) -> 0 <= i < 20 -> P i.
Proof. intros H Hi. apply H. cbn. lia. Qed.

Lemma zr20 : zrange 20 = [0;1;2;3;4;5;6;7;8;9;10;11;12;13;14;15;16;17;18;19].
Proof. reflexivity. Qed.
Ltac panels_sum := rewrite zr20; cbn [map]; unfold loc, nsum, panel, edges_of;
  lazy -[pcount pcount2 Z.add Z.sub Z.mul nadd].
Lemma valence P : valid P -> cells_with mesh_faces (idx P) = (match P with PB _ => 5 | _ => 6 end)%nat.
Proof.
  intros HP. rewrite cells_with_eq by assumption. destruct P as [v | e t | i j k]; cbn in HP.
  - assert (In v [0;1;2;3;4;5;6;7;8;9;10;11]) as Hv by (cbn; lia). clear HP.
    cbn in Hv. repeat destruct Hv as [<- | Hv]; try contradiction;
      panels_sum; rewrite ?at_corner by tauto; reflexivity.
  - destruct HP as [He Ht].
    assert (In e [0;1;2;3;4;5;6;7;8;9;10;11;12;13;14;15;16;17;18;19;20;21;22;23;24;25;26;27;28;29]) as Hv by (cbn; lia).
    clear He. cbn in Hv. repeat destruct Hv as [<- | Hv]; try contradiction;
      panels_sum; rewrite ?(at_side _ t) by tauto; reflexivity.
  - destruct HP as (Hi & Hj & Hk & Hs). pattern i; apply (panel_cases i); [|exact Hi]. clear Hi i. intros n Hn. cbn in Hn.
    repeat destruct Hn as [<- | Hn]; try contradiction;
      panels_sum; rewrite at_inside by lia; reflexivity.
Qed.

(** ** The two cells of an edge *)
Ltac segs := repeat match goal with |- context [pcount2 (Some ?p) (Some ?q)] =>
  first [ replace (pcount2 (Some p) (Some q)) with 1%nat by (symmetry; first [apply side0; lia | apply side1; lia | apply side2; lia])
        | replace (pcount2 (Some p) (Some q)) with 2%nat by (symmetry; first [apply inner0; lia | apply inner1; lia | apply inner2; lia]) ] end.
Lemma edge_dir i j k j' k' : 0 <= i < 20 -> inpanel (j, k) -> inpanel (j', k') ->
  (j' = j /\ k' = k + 1) \/ (j' = j + 1 /\ k' = k) \/ (j' = j + 1 /\ k' = k - 1) ->
  nsum (map (fun i' => pcount2 (loc i' (place_of i (j, k))) (loc i' (place_of i (j', k')))) (zrange 20)) = 2%nat.
Proof.
  intros Hi Hp Hq Hd. unfold inpanel in *. cbn [fst snd] in *.
  pattern i; apply (panel_cases i); [|exact Hi]. clear Hi i. intros n Hn. cbn in Hn.
  repeat destruct Hn as [<- | Hn]; try contradiction;
    unfold place_of, panel, edges_of;
    match goal with |- context [Z.to_nat ?z] => let v := eval compute in (Z.to_nat z) in change (Z.to_nat z) with v end;
    cbn [nth panels panels_to_edges];
    (destruct Hd as [[Ej Ek] | [[Ej Ek] | [Ej Ek]]]; eqbs; try lia; panels_sum; segs; reflexivity).
Qed.
Lemma cells_with2_sym fs u v : cells_with2 fs u v = cells_with2 fs v u.
Proof. unfold cells_with2. f_equal. apply filter_ext. intros f. apply andb_comm. Qed.

Lemma edge_two i c p q : 0 <= i < 20 -> lvalid c = true -> In p (lvl c) -> In q (lvl c) -> p <> q ->
  cells_with2 mesh_faces (idx (place_of i p)) (idx (place_of i q)) = 2%nat.
Proof.
  intros Hi Hc Hp Hq Hne.
  pose proof (lverts_inpanel c p Hc Hp) as Ip. pose proof (lverts_inpanel c q Hc Hq) as Iq.
  assert (D : forall j k j' k', inpanel (j, k) -> inpanel (j', k') ->
     (j' = j /\ k' = k + 1) \/ (j' = j + 1 /\ k' = k) \/ (j' = j + 1 /\ k' = k - 1) ->
     cells_with2 mesh_faces (idx (place_of i (j, k))) (idx (place_of i (j', k'))) = 2%nat).
  { intros. rewrite cells_with2_eq by (apply place_valid; assumption). apply edge_dir; assumption. }
  destruct c as [[o x] y]. unfold lvl, lverts in Hp, Hq.
  destruct o; cbn in Hp, Hq;
    repeat (destruct Hp as [<- | Hp]; [| try contradiction]); try contradiction;
    repeat (destruct Hq as [<- | Hq]; [| try contradiction]); try contradiction; try (exfalso; apply Hne; reflexivity);
    first [apply D; [assumption | assumption | lia] | rewrite cells_with2_sym; apply D; [assumption | assumption | lia]].
Qed.
End Ico.
