(** Properties C37-C41 and C73: element kernels and limiters. *)
From Verif Require Import Base Kernels.
Open Scope R_scope.

Lemma put_same a i v : put a i v i = v.
Proof. unfold put. rewrite Nat.eqb_refl. reflexivity. Qed.
Lemma put_other a i v j : j <> i -> put a i v j = a j.
Proof. intros H. unfold put. destruct (Nat.eqb_spec j i); [congruence|reflexivity]. Qed.

(* ================= C37 ================= *)

(** The value the limited field should have at a midpoint. *)
Definition mid (a b old : R) : R :=
  if Rlt_dec (Rmax a b) old then (a + b) / 2 else if Rlt_dec old (Rmin a b) then (a + b) / 2 else old.

Lemma limit_column_at dg1 old hat i j :
  limit_column dg1 old hat i j =
  if Nat.eqb j (i * 3) then dg1 (i * 2)%nat
  else if Nat.eqb j (i * 3 + 1) then mid (dg1 (i * 2)%nat) (dg1 (i * 2 + 1)%nat) (old (i * 3 + 1)%nat)
  else if Nat.eqb j (i * 3 + 2) then dg1 (i * 2 + 1)%nat else hat j.
Proof.
  unfold limit_column, mid. replace (i * 3 + 2 * 0)%nat with (i * 3)%nat by lia. replace (i * 2 + 0)%nat with (i * 2)%nat by lia.
  replace (i * 3 + 2 * 1)%nat with (i * 3 + 2)%nat by lia.
  destruct (Rlt_dec (Rmax (dg1 (i * 2)%nat) (dg1 (i * 2 + 1)%nat)) (old (i * 3 + 1)%nat));
  [|destruct (Rlt_dec (old (i * 3 + 1)%nat) (Rmin (dg1 (i * 2)%nat) (dg1 (i * 2 + 1)%nat)))]; unfold put;
  destruct (Nat.eqb_spec j (i * 3)), (Nat.eqb_spec j (i * 3 + 1)), (Nat.eqb_spec j (i * 3 + 2)); try lia; lra || reflexivity.
Qed.

Lemma limit_midpoints_at n hat dg1 old i : (i < n)%nat ->
  limit_midpoints n hat dg1 old (i * 3)%nat = dg1 (i * 2)%nat /\
  limit_midpoints n hat dg1 old (i * 3 + 2)%nat = dg1 (i * 2 + 1)%nat /\
  limit_midpoints n hat dg1 old (i * 3 + 1)%nat = mid (dg1 (i * 2)%nat) (dg1 (i * 2 + 1)%nat) (old (i * 3 + 1)%nat).
Proof.
  unfold limit_midpoints. induction n as [|n IH]; intros Hi; [lia|]. rewrite seq_S, fold_left_app. cbn [fold_left plus]. rewrite !limit_column_at.
  destruct (Nat.eq_dec i n) as [->|Hne].
  - rewrite Nat.eqb_refl. destruct (Nat.eqb_spec (n * 3 + 2) (n * 3)), (Nat.eqb_spec (n * 3 + 2) (n * 3 + 1)), (Nat.eqb_spec (n * 3 + 1) (n * 3)); try lia.
    rewrite !Nat.eqb_refl. auto.
  - repeat match goal with |- context [Nat.eqb ?a ?b] => destruct (Nat.eqb_spec a b); [lia|] end. apply IH. lia.
Qed.

(** C37.  After limiting, in every column of every cell the vertex values are those of
    the limited linear field, the midpoint value lies between them, and a midpoint that
    was between them keeps its value. *)
Theorem midpoint_limited :
  forall (n : nat) (hat dg1 old : arr) (i : nat), (i < n)%nat ->
  let lim := limit_midpoints n hat dg1 old in
  let bottom := dg1 (i * 2)%nat in let top := dg1 (i * 2 + 1)%nat in
  lim (i * 3)%nat = bottom /\ lim (i * 3 + 2)%nat = top /\
  Rmin bottom top <= lim (i * 3 + 1)%nat <= Rmax bottom top /\
  (Rmin bottom top <= old (i * 3 + 1)%nat <= Rmax bottom top -> lim (i * 3 + 1)%nat = old (i * 3 + 1)%nat).
Proof.
  intros n hat dg1 old i Hi. cbv zeta. destruct (limit_midpoints_at n hat dg1 old i Hi) as (-> & -> & ->).
  split; [reflexivity|]. split; [reflexivity|]. unfold mid.
  set (a := dg1 (i * 2)%nat). set (b := dg1 (i * 2 + 1)%nat).
  assert (Hm : Rmin a b <= (a + b) / 2 <= Rmax a b) by (unfold Rmin, Rmax; destruct (Rle_dec a b); lra).
  destruct (Rlt_dec (Rmax a b) (old (i * 3 + 1)%nat)); [split; [exact Hm|intros; lra]|].
  destruct (Rlt_dec (old (i * 3 + 1)%nat) (Rmin a b)); [split; [exact Hm|intros; lra]|]. split; [lra|reflexivity].
Qed.
Print Assumptions midpoint_limited.

(** C37.  Limiting the limited field again changes nothing. *)
Theorem midpoint_idempotent :
  forall (n : nat) (hat hat' dg1 old : arr) (j : nat), (j < 3 * n)%nat ->
  limit_midpoints n hat' dg1 (limit_midpoints n hat dg1 old) j = limit_midpoints n hat dg1 old j.
Proof.
  intros n hat hat' dg1 old j Hj.
  pose proof (Nat.div_mod_eq j 3) as Hd. pose proof (Nat.mod_upper_bound j 3 ltac:(lia)) as Hm.
  set (i := (j / 3)%nat) in *. assert (Hi : (i < n)%nat) by lia.
  destruct (midpoint_limited n hat dg1 old i Hi) as (A0 & A2 & A1 & _).
  destruct (midpoint_limited n hat' dg1 (limit_midpoints n hat dg1 old) i Hi) as (B0 & B2 & _ & B1).
  destruct (j mod 3) as [|[|[|k]]]; [| | |lia].
  - replace j with (i * 3)%nat by lia. congruence.
  - replace j with (i * 3 + 1)%nat by lia. apply B1, A1.
  - replace j with (i * 3 + 2)%nat by lia. congruence.
Qed.
Print Assumptions midpoint_idempotent.

Example midpoint_example : limit_midpoints 1 (fun _ => 0) (fun k => INR k) (fun _ => 7) 1%nat = 1/2.
Proof. destruct (limit_midpoints_at 1 (fun _ => 0) (fun k => INR k) (fun _ => 7) 0 ltac:(lia)) as (_ & _ & H). cbn [Nat.mul Nat.add] in H. rewrite H. unfold mid, Rmax, Rmin. cbn [INR]. destruct (Rle_dec 0 1); [|lra]. destruct (Rlt_dec 1 7); lra. Qed.

(* ================= C38 ================= *)

Lemma clip_cell_at field cell j :
  clip_cell field cell j = if existsb (Nat.eqb j) cell then Rmax (field j) 0 else field j.
Proof.
  unfold clip_cell.
  assert (G : forall f, fold_left (fun f i => put f i (if Rlt_dec (field i) 0 then 0 else field i)) cell f j =
                        if existsb (Nat.eqb j) cell then Rmax (field j) 0 else f j).
  { induction cell as [|i cell IH]; intros f; [reflexivity|]. cbn [fold_left existsb]. rewrite IH.
    destruct (existsb (Nat.eqb j) cell); [rewrite orb_true_r; reflexivity|]. rewrite orb_false_r. unfold put.
    destruct (Nat.eqb_spec j i) as [->|]; [|reflexivity]. unfold Rmax. destruct (Rlt_dec (field i) 0), (Rle_dec (field i) 0); lra. }
  apply G.
Qed.

(** C38.  Clipping gives the positive part at every node that belongs to some cell,
    whatever the number of cells and however nodes are shared between them. *)
Theorem clip_is_positive_part :
  forall (cells : list (list nat)) (field : arr) (j : nat),
  (exists c, In c cells /\ In j c) -> zero_limiter cells None field j = Rmax (field j) 0.
Proof.
  intros cells field j (c & Hc & Hj). cbn [zero_limiter]. unfold clip_zero. revert field. induction cells as [|c0 cells IH]; intros field; [destruct Hc|].
  cbn [fold_left]. destruct (in_dec (list_eq_dec Nat.eq_dec) c cells) as [Hin|Hnin].
  - rewrite IH by exact Hin. rewrite clip_cell_at. destruct (existsb (Nat.eqb j) c0); [|reflexivity].
    unfold Rmax. destruct (Rle_dec (field j) 0); destruct (Rle_dec _ 0); lra.
  - destruct Hc as [->|Hc]; [|contradiction].
    assert (K : forall f, Rmax (f j) 0 = f j -> fold_left clip_cell cells f j = f j).
    { clear. induction cells as [|c1 cells IH]; intros f H; [reflexivity|]. cbn. rewrite IH; rewrite clip_cell_at; destruct (existsb (Nat.eqb j) c1); congruence. }
    assert (E : existsb (Nat.eqb j) c = true) by (apply existsb_exists; exists j; split; [exact Hj|apply Nat.eqb_refl]).
    rewrite K; rewrite clip_cell_at, E; [reflexivity|]. unfold Rmax. destruct (Rle_dec (field j) 0); destruct (Rle_dec _ 0); lra.
Qed.
Print Assumptions clip_is_positive_part.

Corollary clip_properties :
  forall (cells : list (list nat)) (field : arr) (j : nat), (exists c, In c cells /\ In j c) ->
  0 <= zero_limiter cells None field j /\
  (0 <= field j -> zero_limiter cells None field j = field j) /\
  zero_limiter cells None (zero_limiter cells None field) j = zero_limiter cells None field j.
Proof.
  intros cells field j H. rewrite !(clip_is_positive_part cells) by exact H. unfold Rmax. repeat split.
  - destruct (Rle_dec (field j) 0); lra.
  - intros. destruct (Rle_dec (field j) 0); lra.
  - destruct (Rle_dec (field j) 0); destruct (Rle_dec _ 0); lra.
Qed.
Print Assumptions clip_properties.
Example clip_example : zero_limiter [[0; 1]; [1; 2]]%nat None (fun k => INR k - 1) 0%nat = 0.
Proof. rewrite clip_is_positive_part; [cbn; unfold Rmax; destruct (Rle_dec (0 - 1) 0); lra|]. exists [0; 1]%nat. split; left; reflexivity. Qed.

(** C38 with a clipping space: non-negative if the interpolation back has non-negative
    weights.  Missing from the full claim: the other interpolations. *)
Theorem clip_mapped_nonneg_partial :
  forall (cells : list (list nat)) (down up : arr -> arr) (field : arr) (j : nat),
  (forall g, (forall i, (exists c, In c cells /\ In i c) -> 0 <= g i) -> 0 <= up g j) ->
  0 <= zero_limiter cells (Some (down, up)) field j.
Proof.
  intros cells down up field j Hup. cbn [zero_limiter]. apply Hup. intros i Hi. apply (clip_properties cells (down field) i Hi).
Qed.
Print Assumptions clip_mapped_nonneg_partial.

(** C38 fails for other clipping spaces: a quadratic field (nodes 0, 1/2, 1) clipped in
    the cubic space (nodes 0, 1/3, 2/3, 1).  The field (1, -1, 1) becomes negative again at
    the midpoint; and a non-negative field can change (clipping in the space of constants). *)
Definition p2_to_p3 (u : arr) : arr := fun k => match k with
  | 0%nat => u 0%nat | 1%nat => 2/9 * u 0%nat + 8/9 * u 1%nat - 1/9 * u 2%nat
  | 2%nat => - 1/9 * u 0%nat + 8/9 * u 1%nat + 2/9 * u 2%nat | _ => u 2%nat end.
Definition p3_to_p2 (u : arr) : arr := fun k => match k with
  | 0%nat => u 0%nat | 1%nat => - 1/16 * u 0%nat + 9/16 * u 1%nat + 9/16 * u 2%nat - 1/16 * u 3%nat | _ => u 3%nat end.
Theorem clip_mapped_refuted :
  (forall u : arr, p3_to_p2 (p2_to_p3 u) 1%nat = u 1%nat) /\
  (let u := fun k => match k with 1%nat => -1 | _ => 1 end in
   zero_limiter [[0; 1; 2; 3]]%nat (Some (p2_to_p3, p3_to_p2)) u 1%nat = - 1/8) /\
  (let u := fun k => match k with 0%nat => 1 | _ => 0 end in
   zero_limiter [[0]]%nat (Some (fun v k => (v 0%nat + v 1%nat) / 2, fun v k => v 0%nat)) u 0%nat = 1/2).
Proof.
  split; [intros u; cbn; field|]. split; cbv zeta.
  - cbn [zero_limiter]. unfold p3_to_p2. change (clip_zero [[0; 1; 2; 3]]%nat) with (zero_limiter [[0; 1; 2; 3]]%nat None).
    rewrite (clip_is_positive_part [[0; 1; 2; 3]]%nat (p2_to_p3 _) 0), (clip_is_positive_part [[0; 1; 2; 3]]%nat (p2_to_p3 _) 1), (clip_is_positive_part [[0; 1; 2; 3]]%nat (p2_to_p3 _) 2), (clip_is_positive_part [[0; 1; 2; 3]]%nat (p2_to_p3 _) 3)
      by (eexists; split; [left; reflexivity|cbn; tauto]).
    unfold p2_to_p3, Rmax. repeat match goal with |- context [Rle_dec ?a ?b] => destruct (Rle_dec a b) end; lra.
  - cbn [zero_limiter]. change (clip_zero [[0]]%nat) with (zero_limiter [[0]]%nat None). rewrite (clip_is_positive_part [[0]]%nat) by (eexists; split; [left; reflexivity|cbn; tauto]).
    unfold Rmax. destruct (Rle_dec _ 0); lra.
Qed.
Print Assumptions clip_mapped_refuted.

(* ================= C39 ================= *)

Lemma fold_min_le vals : forall a, fold_left (fun m v => Rmin m v) vals a <= a /\ forall v, In v vals -> fold_left (fun m v => Rmin m v) vals a <= v.
Proof.
  induction vals as [|u vals IH]; intros a; cbn [fold_left]; [split; [lra|intros ? []]|].
  destruct (IH (Rmin a u)) as [H1 H2]. pose proof (Rmin_l a u). pose proof (Rmin_r a u). split; [lra|].
  intros v [<-|Hv]; [lra|apply H2; exact Hv].
Qed.
Lemma cell_min_nonneg vals : (forall v, In v vals -> 0 <= v) -> cell_min vals = 0.
Proof.
  unfold cell_min. induction vals as [|u vals IH]; intros H; [reflexivity|]. cbn [fold_left].
  rewrite Rmin_left by (apply H; left; reflexivity). apply IH. intros v Hv. apply H. right; exact Hv.
Qed.

Definition ok_weight (lam : R) (f : list R * R) : Prop := cell_min (fst f) < 0 -> - cell_min (fst f) / (snd f - cell_min (fst f)) <= lam.

Lemma weight_props lam f : 0 <= snd f -> 0 <= lam <= 1 ->
  let w := weight lam (fst f) (snd f) in lam <= w /\ 0 <= w <= 1 /\ ok_weight w f.
Proof.
  intros Hm Hl. cbv zeta. unfold weight, ok_weight. destruct (Rlt_dec (cell_min (fst f)) 0) as [Hn|Hn]; [|repeat split; try lra; intros; lra].
  set (q := - cell_min (fst f) / (snd f - cell_min (fst f))).
  assert (Hq : 0 <= q <= 1).
  { unfold q. split; [apply Rmult_le_pos; [lra|left; apply Rinv_0_lt_compat; lra]|].
    apply (Rmult_le_reg_r (snd f - cell_min (fst f))); [lra|]. unfold Rdiv. rewrite Rmult_assoc, Rinv_l by lra. lra. }
  pose proof (Rmax_l lam q). pose proof (Rmax_r lam q).
  assert (Rmax lam q <= 1) by (apply Rmax_lub; lra). repeat split; lra || (intros; lra).
Qed.

Lemma cell_weight_props fields : Forall (fun f => 0 <= snd f) fields ->
  0 <= cell_weight fields <= 1 /\ Forall (ok_weight (cell_weight fields)) fields.
Proof.
  intros H. unfold cell_weight.
  assert (G : forall fs lam, Forall (fun f => 0 <= snd f) fs -> 0 <= lam <= 1 ->
     let w := fold_left (fun l f => weight l (fst f) (snd f)) fs lam in lam <= w /\ 0 <= w <= 1 /\ Forall (ok_weight w) fs).
  { clear. induction fs as [|f fs IH]; intros lam HF Hl; cbv zeta; cbn [fold_left]; [repeat split; try lra; constructor|].
    inversion HF as [|? ? Hf HF']; subst. destruct (weight_props lam f Hf Hl) as (H1 & H2 & H3).
    destruct (IH (weight lam (fst f) (snd f)) HF' H2) as (H4 & H5 & H6). repeat split; try lra. constructor; [|exact H6].
    intros Hn. specialize (H3 Hn). lra. }
  destruct (G fields 0 H ltac:(lra)) as (_ & H2 & H3). split; assumption.
Qed.

(** C39.  In every cell, for any number of mixing ratios and nodes: if the means are
    non-negative the limited values are non-negative. *)
Theorem mean_limiter_nonneg :
  forall fields : list (list R * R), Forall (fun f => 0 <= snd f) fields ->
  Forall (Forall (fun v => 0 <= v)) (mean_limiter fields).
Proof.
  intros fields H. destruct (cell_weight_props fields H) as [Hl Hok]. unfold mean_limiter.
  apply Forall_forall. intros vs Hvs. apply in_map_iff in Hvs. destruct Hvs as (f & <- & Hf).
  apply Forall_forall. intros v Hv. apply in_map_iff in Hv. destruct Hv as (u & <- & Hu).
  rewrite Forall_forall in H, Hok. specialize (H f Hf). specialize (Hok f Hf). unfold blend.
  set (l := cell_weight fields) in *.
  destruct (fold_min_le (fst f) 0) as [Hmn Hle]. specialize (Hle u Hu). fold (cell_min (fst f)) in Hmn, Hle.
  destruct (Rlt_le_dec u 0) as [Hun|Hup]; [|nra].
  unfold ok_weight in Hok. specialize (Hok ltac:(lra)). set (mn := cell_min (fst f)) in *. set (m := snd f) in *.
  assert (Hq : - mn <= l * (m - mn)).
  { apply (Rmult_le_compat_r (m - mn)) in Hok; [|lra]. unfold Rdiv in Hok. rewrite Rmult_assoc, Rinv_l in Hok by lra. lra. }
  nra.
Qed.
Print Assumptions mean_limiter_nonneg.

Lemma dot_blend w v lam m : List.length w = List.length v -> dot w (map (blend lam m) v) = (1 - lam) * dot w v + lam * m * total w.
Proof.
  revert v. induction w as [|a w IH]; intros [|b v] H; cbn in *; try discriminate; [ring|]. rewrite IH by congruence. unfold blend. ring.
Qed.

(** C39.  Each cell's mass (density-weighted sum) is kept, whatever the weights, if the
    mean handed to the limiter is the cell mean. *)
Theorem mean_limiter_keeps_mean :
  forall (fields : list (list R * R)) (k : nat) (w v v' : list R) (m : R),
  nth_error fields k = Some (v, m) -> nth_error (mean_limiter fields) k = Some v' ->
  List.length w = List.length v -> total w <> 0 -> m = cell_mean w v -> dot w v' = dot w v.
Proof.
  intros fields k w v v' m Hk Hk' Hlen Ht Hm. unfold mean_limiter in Hk'. rewrite nth_error_map, Hk in Hk'. cbn in Hk'. injection Hk' as <-.
  rewrite dot_blend by exact Hlen. rewrite Hm. unfold cell_mean. field. exact Ht.
Qed.
Print Assumptions mean_limiter_keeps_mean.

(** C39.  A cell in which no mixing ratio is negative is left unchanged. *)
Theorem mean_limiter_keeps_nonneg_cell :
  forall fields : list (list R * R), Forall (fun f => Forall (fun v => 0 <= v) (fst f)) fields ->
  mean_limiter fields = map fst fields.
Proof.
  intros fields H. assert (Hw : cell_weight fields = 0).
  { unfold cell_weight. induction H as [|f fs Hf HF IH]; [reflexivity|]. cbn [fold_left]. unfold weight at 2.
    rewrite cell_min_nonneg by (apply Forall_forall; exact Hf). destruct (Rlt_dec 0 0); [lra|]. exact IH. }
  unfold mean_limiter. rewrite Hw. apply map_ext. intros f. rewrite <- (map_id (fst f)) at 2. apply map_ext. intros v. unfold blend. ring.
Qed.
Print Assumptions mean_limiter_keeps_nonneg_cell.

(** C39.  The augmentation clips the means first: non-negative results for every input. *)
Theorem mmr_limit_nonneg :
  forall fields : list (list R * list R), Forall (Forall (fun v => 0 <= v)) (mmr_limit fields).
Proof.
  intros fields. apply mean_limiter_nonneg. apply Forall_forall. intros f Hf. apply in_map_iff in Hf. destruct Hf as (g & <- & _).
  cbn. destruct (Rlt_dec (cell_mean (fst g) (snd g)) 0); lra.
Qed.
Print Assumptions mmr_limit_nonneg.
(** ... and keeps the mass of every field whose cell mean is non-negative. *)
Theorem mmr_limit_mass :
  forall (fields : list (list R * list R)) (k : nat) (w v v' : list R),
  nth_error fields k = Some (w, v) -> nth_error (mmr_limit fields) k = Some v' ->
  List.length w = List.length v -> total w <> 0 -> 0 <= cell_mean w v -> dot w v' = dot w v.
Proof.
  intros fields k w v v' Hk Hk' Hlen Ht Hm. unfold mmr_limit in Hk'.
  eapply (mean_limiter_keeps_mean _ k w v v' (cell_mean w v)); [|exact Hk'|exact Hlen|exact Ht|reflexivity].
  rewrite nth_error_map, Hk. cbn. destruct (Rlt_dec (cell_mean w v) 0); [lra|reflexivity].
Qed.
Print Assumptions mmr_limit_mass.
Example mean_limiter_example : mean_limiter [([-1; 3], 1); ([2; 4], 3)] = [[0; 2]; [5/2; 7/2]].
Proof.
  assert (E : cell_weight [([-1; 3], 1); ([2; 4], 3)] = 1/2).
  { unfold cell_weight. cbn [fold_left fst snd]. unfold weight, cell_min. cbn [fold_left fst snd].
    replace (Rmin (Rmin 0 2) 4) with 0 by (unfold Rmin; repeat (destruct (Rle_dec _ _)); lra).
    replace (Rmin (Rmin 0 (-1)) 3) with (-1) by (unfold Rmin; repeat (destruct (Rle_dec _ _)); lra).
    destruct (Rlt_dec (-1) 0); [|lra]. destruct (Rlt_dec 0 0); [lra|].
    replace (- -1 / (1 - -1)) with (1/2) by field. rewrite Rmax_right by lra. lra. }
  unfold mean_limiter. rewrite E. cbn. unfold blend.
  match goal with |- [[?a; ?b]; [?c; ?d]] = _ => replace a with 0 by lra; replace b with 2 by lra; replace c with (5/2) by lra; replace d with (7/2) by lra end. reflexivity.
Qed.
(** C39 fails for a cell with a negative mean: clipping the mean adds mass. *)
Theorem mmr_negative_mean_refuted :
  let w := [1; 1] in let v := [-3; 1] in mmr_limit [(w, v)] = [[0; 0]] /\ dot w v = -2 /\ dot w [0; 0] = 0.
Proof.
  cbv zeta. split; [|split; cbn; lra]. unfold mmr_limit. cbn [map fst snd].
  assert (E : cell_mean [1; 1] [-3; 1] = -1) by (unfold cell_mean; cbn; field). rewrite E. destruct (Rlt_dec (-1) 0); [|lra].
  assert (Ew : cell_weight [([-3; 1], 0)] = 1).
  { unfold cell_weight. cbn [fold_left fst snd]. unfold weight, cell_min. cbn [fold_left].
    replace (Rmin (Rmin 0 (-3)) 1) with (-3) by (unfold Rmin; repeat (destruct (Rle_dec _ _)); lra). destruct (Rlt_dec (-3) 0); [|lra]. replace (- -3 / (0 - -3)) with 1 by field. rewrite Rmax_right; lra. }
  unfold mean_limiter. rewrite Ew. cbn. unfold blend.
  match goal with |- [[?a; ?b]] = _ => replace a with 0 by lra; replace b with 0 by lra end. reflexivity.
Qed.
Print Assumptions mmr_negative_mean_refuted.

(* ================= C40 ================= *)

(** C40 for tensor-product spaces: the limiters accept exactly the discontinuous spaces of
    degree one in every direction. *)
Theorem dg1_limiter_tuple_partial :
  forall (sobolev : string) (l : list nat),
  (is_ok (dg1_limiter_init sobolev (DTuple l)) <-> sobolev = "L2"%string /\ forall n, In n l -> n = 1%nat) /\
  (is_ok (mean_limiter_init [(sobolev, DTuple l)]) <-> sobolev = "L2"%string /\ forall n, In n l -> n = 1%nat).
Proof.
  intros s l.
  assert (E : existsb (fun n => negb (Nat.eqb n 1)) l = false <-> forall n, In n l -> n = 1%nat).
  { induction l as [|a l IH]; cbn; [split; [intros _ ? []|reflexivity]|]. rewrite orb_false_iff, IH, negb_false_iff, Nat.eqb_eq.
    split; [intros [-> H] n [<-|Hn]; auto|]. intros H. split; [apply H; left; reflexivity|]. intros n Hn. apply H. right; exact Hn. }
  unfold dg1_limiter_init, mean_limiter_init, mean_limiter_check, bad_degree, is_ok.
  destruct (String.eqb_spec s "L2") as [->|Hs]; cbn [negb orb].
  - destruct (existsb _ l).
    + split; (split; [intros [x Hx]; discriminate|]; intros [_ H]; apply E in H; discriminate).
    + split; (split; [intros _; split; [reflexivity|apply E; reflexivity]|intros _; eauto]).
  - split; (split; [intros [x Hx]; discriminate|intros [H _]; contradiction]).
Qed.
Print Assumptions dg1_limiter_tuple_partial.
(** C40 fails for all spaces whose degree is an integer (every mesh that is not extruded):
    any degree is accepted. *)
Theorem dg1_limiter_int_refuted :
  forall n : nat, dg1_limiter_init "L2" (DInt n) = Ok tt /\ mean_limiter_init [("L2"%string, DInt n)] = Ok tt.
Proof. intros n. split; reflexivity. Qed.
Print Assumptions dg1_limiter_int_refuted.
(** C40.  The theta limiter accepts exactly DG1 x CG2 on extruded meshes. *)
Theorem theta_limiter_accepts_iff :
  forall (extruded : bool) (f0 f1 : string) (rest : list string) (d : degree),
  is_ok (theta_limiter_init extruded (f0 :: f1 :: rest) d) <->
  extruded = true /\ (f0 = "Discontinuous Lagrange" \/ f0 = "DQ")%string /\ f1 = "Lagrange"%string /\ d = DTuple [1; 2]%nat.
Proof.
  intros ex f0 f1 rest d. unfold theta_limiter_init, is_ok. destruct ex; cbn [negb]; [|split; [intros [x Hx]; discriminate|intros [H _]; discriminate]].
  cbn [existsb]. rewrite orb_false_r.
  destruct (String.eqb_spec f1 "Lagrange") as [->|H1]; cbn [negb].
  2:{ rewrite orb_true_r. cbn. split; [intros [x Hx]; discriminate|intros (_ & _ & H & _); contradiction]. }
  rewrite orb_false_r.
  assert (Hf : String.eqb f0 "Discontinuous Lagrange" || String.eqb f0 "DQ" = true <-> (f0 = "Discontinuous Lagrange" \/ f0 = "DQ")%string)
    by (rewrite orb_true_iff, !String.eqb_eq; tauto).
  destruct (String.eqb f0 "Discontinuous Lagrange" || String.eqb f0 "DQ"); cbn [negb orb].
  2:{ split; [intros [x Hx]; discriminate|intros (_ & H & _); apply Hf in H; discriminate]. }
  pose proof (proj1 Hf eq_refl) as Hf0.
  assert (Hd : match d with DTuple [1%nat; 2%nat] => true | _ => false end = true <-> d = DTuple [1; 2]%nat).
  { destruct d as [n|[|[|[|a]] [|[|[|[|b]]] [|c l]]]]; split; intros H; try discriminate; reflexivity. }
  destruct (match d with DTuple [1%nat; 2%nat] => true | _ => false end); cbn [negb].
  - pose proof (proj1 Hd eq_refl) as Hd0. split; [intros _; auto|intros _; eauto].
  - split; [intros [x Hx]; discriminate|intros (_ & _ & _ & H); apply Hd in H; discriminate].
Qed.
Print Assumptions theta_limiter_accepts_iff.

(* ================= C41 ================= *)

Lemma index_of_some x l i : index_of x l = Some i -> nth_error l i = Some x /\ forall j, (j < i)%nat -> nth_error l j <> Some x.
Proof.
  revert i. induction l as [|y l IH]; intros i H; [discriminate|]. cbn in H. destruct (String.eqb_spec x y) as [->|Hne].
  - injection H as <-. split; [reflexivity|intros; lia].
  - destruct (index_of x l) as [k|]; [|discriminate]. injection H as <-. destruct (IH k eq_refl) as [H1 H2]. split; [exact H1|].
    intros [|j] Hj; cbn; [congruence|]. apply H2. lia.
Qed.
Lemma index_of_none x l : index_of x l = None <-> ~ In x l.
Proof.
  induction l as [|y l IH]; cbn; [tauto|]. destruct (String.eqb_spec x y) as [->|Hne]; [split; [discriminate|tauto]|].
  destruct (index_of x l); cbn; split; intros H; try discriminate; try (intros [H'|H']; [congruence|]; apply IH in H'; [exact H'|reflexivity]).
  - exfalso. apply H. right. destruct (in_dec string_dec x l) as [Hi|Hi]; [exact Hi|]. apply IH in Hi. discriminate.
  - reflexivity.
Qed.
Lemma nth_app_at {F} i (f : F -> F) l j : nth_error (app_at i f l) j = if Nat.eqb j i then option_map f (nth_error l j) else nth_error l j.
Proof.
  revert i j. induction l as [|x l IH]; intros [|i] [|j]; cbn; try reflexivity.
  - destruct (Nat.eqb j i); reflexivity.
  - apply IH.
Qed.
Lemma mixed_init_spec {F} (names : list string) (sub : list (string * (F -> F))) idx : mixed_init names sub = Ok idx ->
  forall j, map snd (filter (fun e => Nat.eqb (fst e) j) idx) =
            map snd (filter (fun e => match index_of (fst e) names with Some i => Nat.eqb i j | None => false end) sub).
Proof.
  revert idx. induction sub as [|[n f] sub IH]; intros idx H j; cbn in H; [injection H as <-; reflexivity|].
  destruct (index_of n names) as [i|] eqn:E; [|discriminate]. apply bind_ok in H. destruct H as (l & Hl & H). injection H as <-.
  cbn [filter fst]. rewrite E. destruct (Nat.eqb i j); cbn [map]; rewrite (IH l Hl j); reflexivity.
Qed.

(** C41.  Component j of the result is its old value with exactly the sub-limiters named
    after component j applied, in dictionary order: with distinct names, one limiter or
    none; the other components are unchanged; an unknown name raises. *)
Theorem mixed_limiter_dispatch :
  forall (F : Type) (names : list string) (sub : list (string * (F -> F))) (fields : list F),
  NoDup names -> NoDup (map fst sub) -> List.length fields = List.length names ->
  (is_err (mixed_init names sub) <-> exists n, In n (map fst sub) /\ ~ In n names) /\
  forall idx, mixed_init names sub = Ok idx ->
    forall j n x, nth_error names j = Some n -> nth_error fields j = Some x ->
    (forall f, In (n, f) sub -> nth_error (mixed_apply idx fields) j = Some (f x)) /\
    (~ In n (map fst sub) -> nth_error (mixed_apply idx fields) j = Some x).
Proof.
  intros F names sub fields Hnd Hds Hlen. split.
  - clear Hds. induction sub as [|[m g] sub IH]; cbn; [split; [intros [e He]; discriminate|intros (n & [] & _)]|].
    destruct (index_of m names) as [i|] eqn:E.
    + apply index_of_some in E. destruct E as [E _]. apply nth_error_In in E.
      split.
      * intros [e He]. destruct (mixed_init names sub) as [l|e'] eqn:Es; [discriminate|].
        destruct (proj1 IH (ex_intro _ e' eq_refl)) as (n & Hn & Hni). exists n. split; [right; exact Hn|exact Hni].
      * intros (n & [<-|Hn] & Hni); [contradiction|]. destruct (proj2 IH (ex_intro _ n (conj Hn Hni))) as [e ->]. exists e; reflexivity.
    + split; [intros _; exists m; split; [left; reflexivity|apply index_of_none; exact E]|intros _; exists ValueError; reflexivity].
  - intros idx Hidx j n x Hn Hx.
    assert (Ap : forall idx fs, nth_error fs j = Some x ->
       nth_error (mixed_apply idx fs) j = Some (fold_left (fun y f => f y) (map snd (filter (fun e => Nat.eqb (fst e) j) idx)) x)).
    { clear. unfold mixed_apply. intros idx. revert x. induction idx as [|[i f] idx IH]; intros x fs Hx; [exact Hx|]. cbn [fold_left filter fst snd].
      assert (E : nth_error (app_at i f fs) j = Some (if Nat.eqb i j then f x else x)).
      { rewrite nth_app_at, Hx. rewrite (Nat.eqb_sym j i). destruct (Nat.eqb i j); reflexivity. }
      rewrite (IH _ _ E). destruct (Nat.eqb i j); reflexivity. }
    rewrite (Ap idx fields Hx), (mixed_init_spec names sub idx Hidx j).
    assert (Ej : forall m, match index_of m names with Some i => Nat.eqb i j | None => false end = String.eqb m n).
    { intros m. destruct (index_of m names) as [i|] eqn:E.
      - apply index_of_some in E. destruct E as [E _]. destruct (String.eqb_spec m n) as [->|Hne].
        + apply Nat.eqb_eq. pose proof (proj1 (NoDup_nth_error names) Hnd) as Hd. apply Hd; [apply nth_error_Some; congruence|congruence].
        + apply Nat.eqb_neq. intros ->. congruence.
      - apply index_of_none in E. destruct (String.eqb_spec m n) as [->|]; [|reflexivity]. exfalso. apply E. eapply nth_error_In; exact Hn. }
    rewrite (filter_ext _ (fun e : string * (F -> F) => String.eqb (fst e) n)) by (intros e; apply Ej).
    split.
    + intros f Hf. clear - Hf Hds. f_equal. induction sub as [|[m g] sub IH]; [destruct Hf|]. cbn in *. inversion Hds as [|? ? Hm Hds']; subst.
      destruct Hf as [Hf|Hf].
      * injection Hf as -> ->. rewrite String.eqb_refl. cbn.
        replace (filter (fun e : string * (F -> F) => String.eqb (fst e) n) sub) with (@nil (string * (F -> F))); [reflexivity|].
        symmetry. clear - Hm. induction sub as [|[k h] sub IH]; [reflexivity|]. cbn in *. destruct (String.eqb_spec k n); [tauto|]. apply IH. tauto.
      * destruct (String.eqb_spec m n) as [->|]; [|apply IH; assumption]. exfalso. apply Hm. apply (in_map fst) in Hf. exact Hf.
    + intros Hnin. replace (filter (fun e : string * (F -> F) => String.eqb (fst e) n) sub) with (@nil (string * (F -> F))); [reflexivity|].
      symmetry. clear - Hnin. induction sub as [|[k h] sub IH]; [reflexivity|]. cbn in *. destruct (String.eqb_spec k n); [tauto|]. apply IH. tauto.
Qed.
Print Assumptions mixed_limiter_dispatch.
Example mixed_limiter_example :
  exists idx, mixed_init ["u"; "rho"; "m"]%string [("m"%string, Rmax 0)] = Ok idx /\ mixed_apply idx [-1; -2; -3] = [-1; -2; Rmax 0 (-3)].
Proof. eexists; split; reflexivity. Qed.

(* ================= C73 ================= *)

Definition is_min (m : R) (l : list R) : Prop := In m l /\ forall v, In v l -> m <= v.
Definition is_max (m : R) (l : list R) : Prop := In m l /\ forall v, In v l -> v <= m.
Lemma fold_minify l : forall a, (forall v, In v l -> fold_left minify l a <= v) /\ fold_left minify l a <= a /\ (fold_left minify l a = a \/ In (fold_left minify l a) l).
Proof.
  induction l as [|b l IH]; intros a; cbn [fold_left]; [repeat split; [intros ? []|lra|left; reflexivity]|].
  destruct (IH (minify a b)) as (H1 & H2 & H3). unfold minify in *. destruct (Rgt_dec a b) as [H|H].
  - repeat split; [|lra|].
    + intros v [<-|Hv]; [exact H2|apply H1; exact Hv].
    + destruct H3 as [->|H3]; [right; left; reflexivity|right; right; exact H3].
  - repeat split; [|lra|].
    + intros v [<-|Hv]; [lra|apply H1; exact Hv].
    + destruct H3 as [->|H3]; [left; reflexivity|right; right; exact H3].
Qed.
Lemma fold_maxify l : forall a, (forall v, In v l -> v <= fold_left maxify l a) /\ a <= fold_left maxify l a /\ (fold_left maxify l a = a \/ In (fold_left maxify l a) l).
Proof.
  induction l as [|b l IH]; intros a; cbn [fold_left]; [repeat split; [intros ? []|lra|left; reflexivity]|].
  destruct (IH (maxify a b)) as (H1 & H2 & H3). unfold maxify in *. destruct (Rlt_dec a b) as [H|H].
  - repeat split; [|lra|].
    + intros v [<-|Hv]; [exact H2|apply H1; exact Hv].
    + destruct H3 as [->|H3]; [right; left; reflexivity|right; right; exact H3].
  - repeat split; [|lra|].
    + intros v [<-|Hv]; [lra|apply H1; exact Hv].
    + destruct H3 as [->|H3]; [left; reflexivity|right; right; exact H3].
Qed.

(** C73.  The minimum and maximum of a field that is distributed over any number of ranks
    (some possibly without nodes) are the least and greatest nodal value, provided all
    values are finite doubles. *)
Theorem min_max_kernels :
  forall (big : R) (ranks : list (list R)),
  concat ranks <> [] -> (forall v, In v (concat ranks) -> - big <= v <= big) ->
  is_min (min_kernel big ranks) (concat ranks) /\ is_max (max_kernel (- big) ranks) (concat ranks).
Proof.
  intros big ranks Hne Hb. split.
  - unfold min_kernel. destruct (fold_minify (map (fun l => fold_left minify l big) ranks) big) as (H1 & H2 & H3).
    set (m := fold_left minify (map (fun l => fold_left minify l big) ranks) big) in *.
    assert (Hle : forall v, In v (concat ranks) -> m <= v).
    { intros v Hv. apply in_concat in Hv. destruct Hv as (l & Hl & Hv). destruct (fold_minify l big) as (G1 & _ & _).
      specialize (G1 v Hv). specialize (H1 _ (in_map (fun l => fold_left minify l big) _ _ Hl)). cbn in H1. lra. }
    split; [|exact Hle].
    assert (Hcase : m = big \/ In m (concat ranks)).
    { destruct H3 as [->|H3]; [left; reflexivity|]. apply in_map_iff in H3. destruct H3 as (l & El & Hl).
      destruct (fold_minify l big) as (_ & _ & [G|G]); [left; congruence|right]. rewrite El in G. apply in_concat. eauto. }
    destruct Hcase as [E|Hin]; [|exact Hin]. destruct (concat ranks) as [|v l] eqn:Ec; [congruence|].
    pose proof (Hle v (or_introl eq_refl)). pose proof (Hb v (or_introl eq_refl)). replace m with v by lra. left; reflexivity.
  - unfold max_kernel. destruct (fold_maxify (map (fun l => fold_left maxify l (- big)) ranks) (- big)) as (H1 & H2 & H3).
    set (m := fold_left maxify (map (fun l => fold_left maxify l (- big)) ranks) (- big)) in *.
    assert (Hle : forall v, In v (concat ranks) -> v <= m).
    { intros v Hv. apply in_concat in Hv. destruct Hv as (l & Hl & Hv). destruct (fold_maxify l (- big)) as (G1 & _ & _).
      specialize (G1 v Hv). specialize (H1 _ (in_map (fun l => fold_left maxify l (- big)) _ _ Hl)). cbn in H1. lra. }
    split; [|exact Hle].
    assert (Hcase : m = - big \/ In m (concat ranks)).
    { destruct H3 as [->|H3]; [left; reflexivity|]. apply in_map_iff in H3. destruct H3 as (l & El & Hl).
      destruct (fold_maxify l (- big)) as (_ & _ & [G|G]); [left; congruence|right]. rewrite El in G. apply in_concat. eauto. }
    destruct Hcase as [E|Hin]; [|exact Hin]. destruct (concat ranks) as [|v l] eqn:Ec; [congruence|].
    pose proof (Hle v (or_introl eq_refl)). pose proof (Hb v (or_introl eq_refl)). replace m with v by lra. left; reflexivity.
Qed.
Print Assumptions min_max_kernels.
