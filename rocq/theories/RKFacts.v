From Verif Require Import Base Vec RKSpec RK.
Open Scope R_scope.

Lemma upd_eq {X} (f : nat -> X) n v : upd f n v n = v.
Proof. unfold upd; rewrite Nat.eqb_refl; reflexivity. Qed.
Lemma upd_neq {X} (f : nat -> X) n m v : m <> n -> upd f n v m = f m.
Proof. intros H; unfold upd. destruct (Nat.eqb_spec m n); [contradiction|reflexivity]. Qed.

Lemma fold_vsum {I} (g : nat -> vec I) : forall n x,
  fold_left (fun x i => x +v g i) (seq 0 n) x = x +v vsum n g.
Proof.
  induction n as [|n IH]; intros x; [cbn; vring|].
  rewrite seq_S, fold_left_app, IH. cbn. vring.
Qed.

Section Facts.
  Context {I : Type}.
  Variables (A : nat -> nat -> R) (s : nat) (L : vec I -> vec I) (dt : R).

  Lemma axpy_spec row n k (x : vec I) :
    axpy A dt row n k x = x +v dt *v vsum n (fun i => A row i *v k i).
  Proof.
    unfold axpy. rewrite fold_vsum. f_equal. rewrite <- vsum_scal. apply vsum_ext. intros; vring.
  Qed.

  (* ---- increment ---- *)
  Lemma increment_invariant F x0 : forall n k0 x10, (n <= s)%nat ->
    let '(k, x1) := fold_left (increment_stage A s L dt F x0) (seq 0 n) (k0, x10) in
    (forall i, (i < n)%nat -> k i = F (x0 +v dt *v vsum i (fun j => a_coef A i j *v k j))) /\
    (n = s -> (0 < s)%nat -> x1 = L (x0 +v dt *v vsum s (fun j => b_coef A s j *v k j))).
  Proof.
    induction n as [|n IH]; intros k0 x10 Hn.
    - cbn. split; [intros; lia|]. intros; lia.
    - rewrite seq_S, fold_left_app. specialize (IH k0 x10 ltac:(lia)).
      destruct (fold_left _ (seq 0 n) (k0, x10)) as [k x1]. destruct IH as [IH _].
      cbn [fold_left increment_stage Nat.add]. rewrite !axpy_spec.
      assert (Hsum : forall i, (i <= n)%nat -> forall v,
        vsum i (fun j => a_coef A i j *v upd k n v j) = vsum i (fun j => a_coef A i j *v k j)).
      { intros i Hi v. apply vsum_ext. intros j Hj. rewrite upd_neq by lia. reflexivity. }
      split.
      + intros i Hi. destruct (Nat.eq_dec i n) as [->|Hne].
        * rewrite upd_eq. rewrite Hsum by lia. f_equal. f_equal. f_equal.
          apply vsum_ext. intros j Hj. destruct n as [|m]; [lia|]. cbn. rewrite Nat.sub_0_r. reflexivity.
        * rewrite upd_neq by exact Hne. rewrite Hsum by lia. apply IH; lia.
      + intros Hs _. replace (Nat.eqb n (s - 1)) with true by (symmetry; apply Nat.eqb_eq; lia).
        f_equal. f_equal. f_equal. unfold b_coef. replace (s - 1)%nat with n by lia. reflexivity.
  Qed.

  Lemma increment_cycle_spec F P k x : (0 < s)%nat ->
    erk_step_limited A s (fun z => F (L z) +v P z) L dt x (snd (increment_cycle A s L dt F P k x)).
  Proof.
    intros Hs. unfold increment_cycle. pose proof (increment_invariant (rhs_physics_then_limit L F P) (L x) s k (L x) (le_n s)) as H.
    destruct (fold_left _ (seq 0 s) (k, L x)) as [k' x1]. destruct H as [H1 H2].
    exists k'. split; [exact H1|]. exact (H2 eq_refl Hs).
  Qed.

  (* ---- predictor ---- *)
  Hypothesis L_idem : forall x, L (L x) = L x.

  (** after n stages: fields 0..n-1 are limited stage values, field n is the raw
      next stage *)
  Lemma predictor_invariant F x0 : L x0 = x0 -> forall n f0 x10, (n <= s)%nat ->
    let '(fi, x1) := fold_left (predictor_stage A s L dt F x0) (seq 0 n) (f0, x10) in
    (n = 0%nat -> fi = f0) /\
    ((0 < n)%nat ->
      fi 0%nat = x0 /\
      (forall i, (i < n)%nat -> fi i = L (x0 +v dt *v vsum i (fun j => a_coef A i j *v F (fi j)))) /\
      fi n = x0 +v dt *v vsum n (fun j => a_coef A n j *v F (fi j)) /\
      (n = s -> x1 = L (fi n))).
  Proof.
    intros Hx0. induction n as [|n IH]; intros f0 x10 Hn.
    - cbn. split; [reflexivity|lia].
    - rewrite seq_S, fold_left_app. specialize (IH f0 x10 ltac:(lia)).
      destruct (fold_left _ (seq 0 n) (f0, x10)) as [fi x1]. destruct IH as [IH0 IH].
      cbn [fold_left predictor_stage Nat.add].
      set (g0 := if Nat.eqb n 0 then upd fi 0 x0 else fi).
      set (g1 := upd g0 (S n) (g0 n)). set (g2 := upd g1 n (L (g1 n))).
      set (g3 := upd g2 (S n) _).
      assert (G0 : g0 0%nat = x0).
      { unfold g0. destruct n as [|m]; cbn [Nat.eqb]; [apply upd_eq|]. apply IH; lia. }
      assert (Gn : g0 n = x0 +v dt *v vsum n (fun j => a_coef A n j *v F (g0 j))).
      { unfold g0. destruct n as [|m]; cbn [Nat.eqb].
        - rewrite upd_eq. cbn. vring.
        - apply IH; lia. }
      assert (Glt : forall i, (i < n)%nat -> g0 i = L (x0 +v dt *v vsum i (fun j => a_coef A i j *v F (g0 j)))).
      { intros i Hi. unfold g0. destruct n as [|m]; [lia|]. cbn [Nat.eqb]. apply IH; lia. }
      assert (E2lt : forall i, (i < n)%nat -> g2 i = g0 i).
      { intros i Hi. unfold g2, g1. rewrite !upd_neq by lia. reflexivity. }
      assert (E2n : g2 n = L (g0 n)).
      { unfold g2, g1. rewrite upd_eq, upd_neq by lia. reflexivity. }
      assert (E20 : g2 0%nat = x0).
      { destruct n as [|m]; [rewrite E2n, G0; exact Hx0|]. rewrite E2lt by lia. exact G0. }
      assert (E3 : forall i, (i <= n)%nat -> g3 i = g2 i).
      { intros i Hi. unfold g3. rewrite upd_neq by lia. reflexivity. }
      assert (E3S : g3 (S n) = x0 +v dt *v vsum (S n) (fun j => a_coef A (S n) j *v F (g3 j))).
      { unfold g3 at 1. rewrite upd_eq, fold_vsum, E20. f_equal. rewrite <- vsum_scal. apply vsum_ext.
        intros j Hj. rewrite (E3 j) by lia. cbn [a_coef]. vring. }
      assert (Sum : forall i, (i <= n)%nat ->
        vsum i (fun j => a_coef A i j *v F (g3 j)) = vsum i (fun j => a_coef A i j *v F (g0 j))).
      { intros i Hi. apply vsum_ext. intros j Hj. rewrite E3, E2lt by lia. reflexivity. }
      split; [discriminate|]. intros _. repeat split.
      + rewrite E3 by lia. exact E20.
      + intros i Hi. rewrite Sum by lia. rewrite E3 by lia. destruct (Nat.eq_dec i n) as [->|Hne].
        * rewrite E2n, Gn at 1. reflexivity.
        * rewrite E2lt by lia. apply Glt; lia.
      + exact E3S.
      + intros Hs. replace (Nat.eqb n (s - 1)) with true by (symmetry; apply Nat.eqb_eq; lia). reflexivity.
  Qed.

  Lemma predictor_cycle_spec F P fi x : (0 < s)%nat ->
    erk_step_limited A s (fun z => F (L z) +v P (L z)) L dt x (snd (predictor_cycle A s L dt F P fi x)).
  Proof.
    intros Hs. unfold predictor_cycle.
    pose proof (predictor_invariant (fun z => F z +v P z) (L x) (L_idem x) s fi (L x) (le_n s)) as H.
    destruct (fold_left _ (seq 0 s) (fi, L x)) as [f' x1]. destruct H as [_ H].
    destruct (H Hs) as (_ & H1 & H2 & H3). exists (fun j => F (f' j) +v P (f' j)). split.
    - intros i Hi. rewrite <- (H1 i Hi). reflexivity.
    - cbn [snd]. rewrite (H3 eq_refl), H2. destruct s as [|m]; [lia|].
      unfold b_coef. replace (S m - 1)%nat with m by lia. reflexivity.
  Qed.
End Facts.

(* ---- uniqueness of the textbook step ---- *)
Lemma stages_unique {I} (A : nat -> nat -> R) s (G : vec I -> vec I) dt y k k' :
  (forall i, (i < s)%nat -> k i = G (y +v dt *v vsum i (fun j => a_coef A i j *v k j))) ->
  (forall i, (i < s)%nat -> k' i = G (y +v dt *v vsum i (fun j => a_coef A i j *v k' j))) ->
  forall i, (i < s)%nat -> k i = k' i.
Proof.
  intros H H' i. induction i as [i IH] using lt_wf_ind; intros Hi.
  rewrite H, H' by exact Hi. f_equal. f_equal. f_equal. apply vsum_ext.
  intros j Hj. rewrite IH by lia. reflexivity.
Qed.

Lemma erk_step_unique {I} A s (F : vec I -> vec I) dt y y1 y2 :
  erk_step A s F dt y y1 -> erk_step A s F dt y y2 -> y1 = y2.
Proof.
  intros (k & Hk & ->) (k' & Hk' & ->). f_equal. f_equal. apply vsum_ext. intros j Hj.
  rewrite (stages_unique A s F dt y k k' Hk Hk' j Hj). reflexivity.
Qed.

Lemma erk_step_limited_unique {I} A s (F L : vec I -> vec I) dt y y1 y2 :
  erk_step_limited A s F L dt y y1 -> erk_step_limited A s F L dt y y2 -> y1 = y2.
Proof.
  intros (k & Hk & ->) (k' & Hk' & ->). f_equal. f_equal. f_equal. apply vsum_ext. intros j Hj.
  rewrite (stages_unique A s F dt (L y) k k' Hk Hk' j Hj). reflexivity.
Qed.

Lemma limited_id {I} A s (F : vec I -> vec I) dt x y :
  erk_step_limited A s F (fun v => v) dt x y <-> erk_step A s F dt x y.
Proof. unfold erk_step_limited, erk_step. tauto. Qed.

Lemma erk_steps_unique {I} A s (F : vec I -> vec I) dt n : forall y y1 y2,
  erk_steps A s F dt n y y1 -> erk_steps A s F dt n y y2 -> y1 = y2.
Proof.
  induction n as [|n IH]; cbn; intros y y1 y2; [congruence|].
  intros (z & H1 & H2) (z' & H1' & H2'). rewrite (IH _ _ _ H1 H1') in H2.
  exact (erk_step_unique _ _ _ _ _ _ _ H2 H2').
Qed.

(** canonical construction of the textbook step *)
Fixpoint kbuild {I} (A : nat -> nat -> R) (F : vec I -> vec I) dt y (n : nat) : nat -> vec I :=
  match n with
  | O => fun _ => vzero
  | S m => let k := kbuild A F dt y m in
           upd k m (F (y +v dt *v vsum m (fun j => a_coef A m j *v k j)))
  end.
Lemma kbuild_spec {I} A (F : vec I -> vec I) dt y n :
  forall i, (i < n)%nat -> kbuild A F dt y n i = F (y +v dt *v vsum i (fun j => a_coef A i j *v kbuild A F dt y n j)).
Proof.
  induction n as [|n IH]; intros i Hi; [lia|]. cbn [kbuild].
  assert (Hsum : forall i v, (i <= n)%nat -> vsum i (fun j => a_coef A i j *v upd (kbuild A F dt y n) n v j)
     = vsum i (fun j => a_coef A i j *v kbuild A F dt y n j)).
  { intros i' v Hi'. apply vsum_ext. intros j Hj. rewrite upd_neq by lia. reflexivity. }
  destruct (Nat.eq_dec i n) as [->|Hne].
  - rewrite upd_eq, Hsum by lia. reflexivity.
  - rewrite upd_neq by exact Hne. rewrite Hsum by lia. apply IH; lia.
Qed.
Definition erk_result {I} A s (F : vec I -> vec I) dt y : vec I :=
  y +v dt *v vsum s (fun j => b_coef A s j *v kbuild A F dt y s j).
Lemma erk_result_spec {I} A s (F : vec I -> vec I) dt y : erk_step A s F dt y (erk_result A s F dt y).
Proof. exists (kbuild A F dt y s). split; [apply kbuild_spec|reflexivity]. Qed.
Lemma erk_step_iff {I} A s (F : vec I -> vec I) dt y y1 : erk_step A s F dt y y1 <-> y1 = erk_result A s F dt y.
Proof.
  split; [intros H; exact (erk_step_unique _ _ _ _ _ _ _ H (erk_result_spec A s F dt y))|].
  intros ->; apply erk_result_spec.
Qed.
Lemma erk_steps_iff {I} A s (F : vec I -> vec I) dt n : forall y y1,
  erk_steps A s F dt n y y1 <-> y1 = niter n (erk_result A s F dt) y.
Proof.
  induction n as [|n IH]; intros y y1; [cbn; tauto|].
  rewrite niter_S_out. cbn [erk_steps]. split.
  - intros (z & H1 & H2). apply IH in H1. apply erk_step_iff in H2. subst; reflexivity.
  - intros ->. exists (niter n (erk_result A s F dt) y). split; [apply IH; reflexivity|apply erk_result_spec].
Qed.

(* ---- linear formulation ---- *)
(** stage fields of the linear formulation from y *)
Fixpoint zbuild {I} (A : nat -> nat -> R) (F : vec I -> vec I) dt (y : vec I) (n : nat) : nat -> vec I :=
  match n with
  | O => fun _ => y
  | S m => let z := zbuild A F dt y m in
           upd z (S m) (y +v dt *v F (vsum (S m) (fun i => A m i *v z i)))
  end.
Definition zf {I} A (F : vec I -> vec I) dt y (i : nat) : vec I := zbuild A F dt y i i.
Lemma zbuild_stable {I} A (F : vec I -> vec I) dt y n : forall i, (i <= n)%nat -> zbuild A F dt y n i = zf A F dt y i.
Proof.
  induction n as [|n IH]; intros i Hi.
  - replace i with 0%nat by lia. reflexivity.
  - destruct (Nat.eq_dec i (S n)) as [->|Hne]; [reflexivity|].
    cbn [zbuild]. rewrite upd_neq by exact Hne. apply IH; lia.
Qed.
Lemma zf_0 {I} A (F : vec I -> vec I) dt y : zf A F dt y 0 = y.
Proof. reflexivity. Qed.
Lemma zf_S {I} A (F : vec I -> vec I) dt y m :
  zf A F dt y (S m) = y +v dt *v F (vsum (S m) (fun i => A m i *v zf A F dt y i)).
Proof.
  unfold zf at 1. cbn [zbuild]. rewrite upd_eq. f_equal. f_equal. f_equal. apply vsum_ext.
  intros i Hi. rewrite zbuild_stable by lia. reflexivity.
Qed.

Section Linear.
  Context {I : Type}.
  Variables (A : nat -> nat -> R) (s : nat) (dt : R) (F1 F2 : vec I -> vec I) (ncyc : nat).
  Hypothesis Hs : (0 < s)%nat.
  Notation id := (fun v : vec I => v).
  Notation Z := (zf A F1 dt).
  (** the value at the start of subcycle c *)
  Definition Y (y0 : vec I) (c : nat) : vec I := niter c (fun y => Z y s) y0.

  (** good lhs: for all complete stages before index m *)
  Definition good (y0 : vec I) (m : nat) (lhs : nat -> vec I) : Prop :=
    forall c i, (i < s)%nat -> (s * c + i < m)%nat -> lhs (s * c + i)%nat = Z (Y y0 c) i.

  Lemma fold_lin_sum (g : nat -> vec I) n : fold_left (fun r i => r +v g i) (seq 0 n) vzero = vsum n g.
  Proof. rewrite fold_vsum. vring. Qed.

  Lemma stage_step y0 idx stage lhs x1 :
    (idx < ncyc)%nat -> (stage < s)%nat -> (s * idx + stage + 1 < ncyc * s)%nat ->
    (s * idx + stage = 0 \/ good y0 (s * idx + stage + 1) lhs)%nat ->
    let '(lhs', x1') := linear_stage A s id dt F1 F2 ncyc idx (Y y0 idx) (lhs, x1) stage in
    good y0 (s * idx + stage + 2) lhs' /\ x1' = Z (Y y0 idx) (S stage).
  Proof.
    intros Hi Hst Hlt Hg. unfold linear_stage.
    set (lhs0 := if (Nat.eqb stage 0 && Nat.eqb idx 0)%bool then upd (fun _ => vzero) 0 (Y y0 idx) else lhs).
    assert (G0 : good y0 (s * idx + stage + 1) lhs0).
    { unfold lhs0. destruct (Nat.eqb_spec stage 0) as [->|Hn0]; cbn [andb].
      - destruct (Nat.eqb_spec idx 0) as [->|Hn1].
        + intros c i Hi' Hm. assert (c = 0%nat) by nia. subst c. assert (i = 0%nat) by lia. subst i.
          rewrite Nat.mul_0_r. cbn. reflexivity.
        + destruct Hg as [Hg|Hg]; [nia|exact Hg].
      - destruct Hg as [Hg|Hg]; [lia|exact Hg]. }
    replace (Nat.ltb (s * idx + stage + 1) (ncyc * s)) with true by (symmetry; apply Nat.ltb_lt; lia).
    rewrite fold_lin_sum.
    assert (E : Y y0 idx +v dt *v F1 (vsum (S stage) (fun i => A stage i *v lhs0 (s * idx + i)%nat)) = Z (Y y0 idx) (S stage)).
    { rewrite zf_S. f_equal. f_equal. f_equal. apply vsum_ext. intros i Hi'. rewrite G0 by lia. reflexivity. }
    rewrite E. split; [|reflexivity].
    intros c i Hi' Hm. destruct (Nat.eq_dec (s * c + i) (s * idx + stage + 1)) as [Eq|Hne].
    - rewrite Eq, upd_eq.
      destruct (Nat.eq_dec stage (s - 1)) as [->|Hns].
      + assert (c = S idx) by nia. assert (i = 0%nat) by nia. subst c i. rewrite zf_0.
        unfold Y. rewrite niter_S_out. replace (S (s - 1)) with s by lia. reflexivity.
      + assert (c = idx) by nia. subst c. assert (i = S stage) by lia. subst i. reflexivity.
    - rewrite upd_neq by exact Hne. apply G0; [exact Hi'|lia].
  Qed.

  Lemma stages_run y0 idx : (idx < ncyc)%nat -> forall n lhs x1,
    (n <= s)%nat -> (s * idx + n < ncyc * s)%nat ->
    (idx = 0%nat \/ good y0 (s * idx + 1) lhs) ->
    let '(lhs', x1') := fold_left (linear_stage A s id dt F1 F2 ncyc idx (Y y0 idx)) (seq 0 n) (lhs, x1) in
    ((0 < n)%nat -> good y0 (s * idx + n + 1) lhs' /\ x1' = Z (Y y0 idx) n) /\ (n = 0%nat -> lhs' = lhs).
  Proof.
    intros Hi. induction n as [|n IH]; intros lhs x1 Hn Hlt Hg.
    - cbn. split; [lia|reflexivity].
    - rewrite seq_S, fold_left_app. specialize (IH lhs x1 ltac:(lia) ltac:(lia) Hg).
      destruct (fold_left _ (seq 0 n) (lhs, x1)) as [lhs1 x11]. destruct IH as [IH1 IH0].
      cbn [fold_left Nat.add].
      assert (Hg' : (s * idx + n = 0 \/ good y0 (s * idx + n + 1) lhs1)%nat).
      { destruct n as [|n].
        - rewrite (IH0 eq_refl). destruct Hg as [->|Hg]; [left; lia|right]. rewrite Nat.add_0_r. exact Hg.
        - right. apply IH1; lia. }
      pose proof (stage_step y0 idx n lhs1 x11 Hi ltac:(lia) ltac:(lia) Hg') as H.
      destruct (linear_stage A s id dt F1 F2 ncyc idx (Y y0 idx) (lhs1, x11) n) as [lhs2 x12].
      destruct H as [H1 H2]. split; [|discriminate]. intros _. split; [|exact H2].
      replace (s * idx + S n + 1)%nat with (s * idx + n + 2)%nat by lia. exact H1.
  Qed.

  Lemma cycles_run y0 store : forall n, (n < ncyc)%nat ->
    let '(lhs, x0) := apply_cycles (linear_cycle_of A s id dt F1 F2 ncyc) n store y0 in
    x0 = Y y0 n /\ (n = 0%nat \/ good y0 (s * n + 1) lhs).
  Proof.
    unfold apply_cycles. induction n as [|n IH]; intros Hn; [cbn; auto|].
    rewrite seq_S, fold_left_app. specialize (IH ltac:(lia)).
    destruct (fold_left _ (seq 0 n) (store, y0)) as [lhs x0]. destruct IH as [-> Hg].
    cbn [fold_left Nat.add]. unfold linear_cycle_of at 1.
    pose proof (stages_run y0 n ltac:(lia) s lhs (Y y0 n) (le_n s) ltac:(nia) Hg) as H.
    destruct (fold_left _ (seq 0 s) (lhs, Y y0 n)) as [lhs' x1']. destruct H as [H _].
    destruct (H Hs) as [H1 H2]. split.
    - rewrite H2. unfold Y. rewrite niter_S_out. reflexivity.
    - right. replace (s * S n + 1)%nat with (s * n + s + 1)%nat by nia. exact H1.
  Qed.

  Lemma vsum_blocks (g : nat -> nat -> vec I) n :
    vsum (n * s) (fun i => g (i / s)%nat (i mod s)%nat) = vsum n (fun c => vsum s (g c)).
  Proof.
    induction n as [|n IH]; [reflexivity|].
    replace (S n * s)%nat with (n * s + s)%nat by lia. rewrite vsum_split, IH. cbn [vsum]. f_equal.
    apply vsum_ext. intros k Hk. f_equal.
    - rewrite Nat.div_add_l by lia. rewrite Nat.div_small by exact Hk. lia.
    - rewrite Nat.add_comm, Nat.mod_add by lia. apply Nat.mod_small; exact Hk.
  Qed.

  Lemma linear_apply_value store y0 : (0 < ncyc)%nat ->
    snd (apply_cycles (linear_cycle_of A s id dt F1 F2 ncyc) ncyc store y0) =
    Y y0 (ncyc - 1) +v dt *v F2 (vsum ncyc (fun c => vsum s (fun j => b_coef A s j *v Z (Y y0 c) j))).
  Proof.
    intros Hn. unfold apply_cycles. set (m := (ncyc - 1)%nat). assert (En : ncyc = S m) by (unfold m; lia).
    replace (seq 0 ncyc) with (seq 0 m ++ [m])%list by (rewrite En, seq_S; reflexivity).
    rewrite fold_left_app.
    pose proof (cycles_run y0 store m ltac:(lia)) as H. unfold apply_cycles in H.
    destruct (fold_left _ (seq 0 m) (store, y0)) as [lhs x0]. destruct H as [-> Hg].
    cbn [fold_left Nat.add]. unfold linear_cycle_of at 1.
    replace (seq 0 s) with (seq 0 (s - 1) ++ [(s - 1)%nat])%list
      by (replace s with (S (s - 1)) at 3 by lia; rewrite seq_S; reflexivity).
    rewrite fold_left_app.
    pose proof (stages_run y0 m ltac:(lia) (s - 1) lhs (Y y0 m) ltac:(lia) ltac:(nia) Hg) as H.
    destruct (fold_left _ (seq 0 (s - 1)) (lhs, Y y0 m)) as [lhs' x1']. destruct H as [H1 H0].
    cbn [fold_left Nat.add]. unfold linear_stage.
    replace (Nat.ltb (s * m + (s - 1) + 1) (ncyc * s)) with false by (symmetry; apply Nat.ltb_ge; nia).
    cbn [snd]. f_equal. f_equal. f_equal.
    rewrite fold_lin_sum.
    rewrite <- (vsum_blocks (fun c j => b_coef A s j *v Z (Y y0 c) j)).
    apply vsum_ext. intros i Hi. unfold b_coef. f_equal.
    set (lhs0 := if (Nat.eqb (s - 1) 0 && Nat.eqb m 0)%bool then _ else lhs').
    assert (G : good y0 (s * m + s) lhs0).
    { unfold lhs0. destruct (Nat.eqb_spec (s - 1) 0) as [E1|E1]; cbn [andb].
      - destruct (Nat.eqb_spec m 0) as [->|E2].
        + intros c i' Hi' Hm'. assert (c = 0%nat) by nia. subst c. assert (i' = 0%nat) by lia. subst i'.
          rewrite Nat.mul_0_r. reflexivity.
        + rewrite (H0 E1). destruct Hg as [Hg|Hg]; [lia|]. replace (s * m + s)%nat with (s * m + 1)%nat by lia. exact Hg.
      - replace (s * m + s)%nat with (s * m + (s - 1) + 1)%nat by lia. apply H1; lia. }
    pose proof (Nat.div_mod i s ltac:(lia)) as Hdm.
    rewrite Hdm at 1. apply G.
    - apply Nat.mod_upper_bound; lia.
    - rewrite <- Hdm. nia.
  Qed.
End Linear.

(** for linear F the stage fields reproduce the textbook step *)
Lemma linear_fields_textbook {I} A s (F : vec I -> vec I) dt y : linear_op F -> (0 < s)%nat ->
  erk_step A s F dt y (zf A F dt y s).
Proof.
  intros HF Hs. exists (fun j => F (zf A F dt y j)). 
  assert (E : forall m, zf A F dt y (S m) = y +v dt *v vsum (S m) (fun j => A m j *v F (zf A F dt y j))).
  { intros m. rewrite zf_S. f_equal. f_equal. rewrite linear_op_sum by exact HF. apply vsum_ext.
    intros j Hj. apply HF. }
  split.
  - intros i Hi. f_equal. destruct i as [|i]; [rewrite zf_0; cbn [vsum]; vring|]. apply E.
  - destruct s as [|m]; [lia|]. rewrite E. unfold b_coef. replace (S m - 1)%nat with m by lia. reflexivity.
Qed.

(** n subcycles of the linear formulation: textbook iterate plus a surplus. *)
Lemma linear_apply_surplus {I} A s dt (F0 P : vec I -> vec I) n store y0 :
  linear_op (fun v => F0 v +v P v) -> (0 < s)%nat -> (0 < n)%nat ->
  let y := fun c => niter c (erk_result A s (fun v => F0 v +v P v) dt) y0 in
  apply_linear A s (fun v => v) dt F0 F0 P n store y0 = y n +v (y (n - 1)%nat -v y0).
Proof.
  intros HF Hs Hn. set (F := fun v => F0 v +v P v) in *. intros y.
  unfold apply_linear, linear_cycle. change (rhs_physics_then_limit (fun v : vec I => v) F0 P) with F.
  rewrite linear_apply_value by assumption.
  assert (E : forall z, zf A F dt z s = erk_result A s F dt z).
  { intros z. apply erk_step_iff. apply linear_fields_textbook; assumption. }
  assert (EY : forall c, Y A s dt F y0 c = y c).
  { intros c. unfold Y, y. induction c as [|c IH]; [reflexivity|]. rewrite !niter_S_out, E, IH. reflexivity. }
  rewrite EY. rewrite linear_op_sum by exact HF. rewrite <- vsum_scal.
  assert (T : forall m, vsum m (fun c => dt *v F (vsum s (fun j => b_coef A s j *v zf A F dt (Y A s dt F y0 c) j))) = y m -v y0).
  { induction m as [|m IH]; [cbn; vring|]. cbn [vsum]. rewrite IH, EY.
    assert (H : y (S m) = y m +v dt *v F (vsum s (fun j => b_coef A s j *v zf A F dt (y m) j))).
    { unfold y at 1. rewrite niter_S_out. change (niter m _ y0) with (y m). rewrite <- E.
      destruct s as [|q]; [lia|]. rewrite zf_S. unfold b_coef. replace (S q - 1)%nat with q by lia. reflexivity. }
    rewrite H. vring. }
  rewrite T. vring.
Qed.
