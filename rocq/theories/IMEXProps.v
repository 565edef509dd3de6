(** Properties C20 (IMEX part), C21, C22, C23, C69. *)
From Verif Require Import Base Vec RK RKSpec RKFacts RKProps IMEXSpec IMEX IMEXFacts.
From Coq Require Import Lra.
Open Scope R_scope.

(** C21.  For every pair of tableaus, all implicit, explicit and physics terms, any
    left-over stage storage: the values apply can return are exactly the results of
    the textbook IMEX step.  (The right-hand sides are minus the left-hand side
    operators of the residual; physics is treated explicitly.) *)
Theorem imex_is_textbook :
  forall (I : Type) A D s dt (Ni Ne Ns ev : vec I -> vec I) st y y1, (0 < s)%nat ->
  (imex_apply A D s dt Ni Ne Ns ev no_limiter st y y1 <->
   imex_step A D (A s) (D s) s (fun v => vopp (Ni v)) (fun v => vopp (Ne v +v Ns (ev v))) dt y y1).
Proof.
  intros I A D s dt Ni Ne Ns ev st y y1 Hs. split.
  - intros H. apply imex_forward in H as (f & Hf & H); [|exact Hs].
    apply (limited_id_imex A D s f _ _ dt y y1 Hs Hf). exact H.
  - intros H. destruct (first_stage_exists A s Hs) as [f Hf].
    apply (imex_backward A D s dt Ni Ne Ns ev _ Hs st y y1 f Hf).
    apply (limited_id_imex A D s f _ _ dt y y1 Hs Hf). exact H.
Qed.
Print Assumptions imex_is_textbook.

(** C21.  Setup accepts exactly the equations in which every term is labelled. *)
Theorem imex_setup_requires_labels :
  forall residual, imex_setup_ok residual = Ok tt <->
  (forall t, In t residual -> is_implicit t = true \/ is_explicit t = true \/ is_td t = true \/ is_source t = true).
Proof.
  intros r. unfold imex_setup_ok. destruct (existsb _ r) eqn:E.
  - split; [discriminate|]. intros H. apply existsb_exists in E as (t & Ht & B).
    destruct t as [a b c d]; cbn in B. destruct (H _ Ht) as [X|[X|[X|X]]]; cbn in X; subst; cbn in B; try discriminate;
    repeat (rewrite ?andb_true_r, ?andb_false_r in B); try discriminate;
    destruct a, b; cbn in B; discriminate.
  - split; [|reflexivity]. intros _ t Ht.
    assert (B : (negb (is_implicit t) && negb (is_explicit t) && negb (is_td t) && negb (is_source t))%bool = false).
    { rewrite <- not_true_iff_false. intros B. rewrite <- not_true_iff_false in E. apply E.
      apply existsb_exists. exists t; auto. }
    destruct (is_implicit t), (is_explicit t), (is_td t), (is_source t); cbn in B; auto; discriminate.
Qed.
Print Assumptions imex_setup_requires_labels.

(* ---- order conditions ---- *)
Lemma sqrt2_sq : sqrt 2 * sqrt 2 = 2. Proof. apply sqrt_sqrt; lra. Qed.
Lemma sqrt3_sq : sqrt 3 * sqrt 3 = 3. Proof. apply sqrt_sqrt; lra. Qed.
Lemma inv_sqrt2 : 1 / sqrt 2 = sqrt 2 / 2.
Proof.
  assert (sqrt 2 <> 0) by (apply Rgt_not_eq, sqrt_lt_R0; lra).
  apply (Rmult_eq_reg_r (sqrt 2)); [|assumption]. field_simplify; [|assumption].
  replace (sqrt 2 ^ 2) with (sqrt 2 * sqrt 2) by ring. rewrite sqrt2_sq. field.
Qed.
Lemma inv_2sqrt2 : 1 / (2 * sqrt 2) = sqrt 2 / 4.
Proof.
  assert (sqrt 2 <> 0) by (apply Rgt_not_eq, sqrt_lt_R0; lra).
  replace (1 / (2 * sqrt 2)) with (1 / sqrt 2 / 2) by (field; assumption). rewrite inv_sqrt2. field.
Qed.

Ltac cases_in := repeat match goal with
  | H : In _ _ |- _ => cbn in H; destruct H as [<-|[<-|[]]] end.

Theorem imex_schemes_consistent :
  pair_order1 2 (imex_euler_imp 2) (imex_euler_exp 2) /\
  pair_order1 3 (ars3_imp 3) (ars3_exp 3) /\
  pair_order1 3 (ark2_imp 3) (ark2_exp 3) /\
  pair_order1 3 (ssp3_imp 3) (ssp3_exp 3) /\
  pair_order1 4 (trap2_imp 4) (trap2_exp 4).
Proof.
  unfold pair_order1, consistent, imex_euler_imp, imex_euler_exp, ars3_imp, ars3_exp, ark2_imp, ark2_exp,
    ssp3_imp, ssp3_exp, trap2_imp, trap2_exp, ark2_g, ark2_d, table; cbn.
  rewrite inv_sqrt2, inv_2sqrt2. repeat split; lra.
Qed.
Print Assumptions imex_schemes_consistent.

Theorem imex_schemes_second_order :
  pair_order2 3 ark2_imp ark2_exp (ark2_imp 3) (ark2_exp 3) /\
  pair_order2 3 ssp3_imp ssp3_exp (ssp3_imp 3) (ssp3_exp 3) /\
  pair_order2 4 trap2_imp trap2_exp (trap2_imp 4) (trap2_exp 4).
Proof.
  destruct imex_schemes_consistent as (_ & _ & C1 & C2 & C3).
  assert (S2 := sqrt2_sq).
  split; [|split]; (split; [assumption|]); intros w M Hw HM; cases_in;
    unfold dot, row_sum, ark2_imp, ark2_exp, ssp3_imp, ssp3_exp, trap2_imp, trap2_exp, ark2_g, ark2_d, ark2_a, table; cbn;
    rewrite ?inv_sqrt2, ?inv_2sqrt2; nra.
Qed.
Print Assumptions imex_schemes_second_order.

Theorem imex_ars3_third_order :
  pair_order3 3 ars3_imp ars3_exp (ars3_imp 3) (ars3_exp 3).
Proof.
  destruct imex_schemes_consistent as (_ & C & _). assert (S3 := sqrt3_sq).
  split; [split; [exact C|]|].
  - intros w M Hw HM; cases_in; unfold dot, row_sum, ars3_imp, ars3_exp, ars3_g, table; cbn; nra.
  - intros w M N Hw HM HN; cases_in; unfold dot, row_sum, ars3_imp, ars3_exp, ars3_g, table; cbn; split; nra.
Qed.
Print Assumptions imex_ars3_third_order.

(** Not more than claimed: IMEX Euler is not second order. *)
Theorem imex_euler_not_second_order : dot 2 (imex_euler_imp 2) (row_sum 2 imex_euler_imp) <> 1/2.
Proof. unfold dot, row_sum, imex_euler_imp, table; cbn. lra. Qed.
Print Assumptions imex_euler_not_second_order.

(** IMEX Euler written out: any result is forward-backward Euler. *)
Theorem imex_euler_formula :
  forall (I : Type) dt (Ni Ne Ns ev : vec I -> vec I) st y y1,
  imex_apply imex_euler_imp imex_euler_exp 2 dt Ni Ne Ns ev no_limiter st y y1 <->
  y1 = y +v dt *v (vopp (Ni y1) +v vopp (Ne y +v Ns (ev y))).
Proof.
  intros I dt Ni Ne Ns ev st y y1. rewrite imex_is_textbook by lia. split.
  - intros (Y & HY & E). pose proof (HY 0%nat ltac:(lia)) as Y0. pose proof (HY 1%nat ltac:(lia)) as Y1.
    cbn in Y0, Y1, E.
    assert (E0 : Y 0%nat = y).
    { rewrite Y0 at 1. unfold imex_euler_imp, table; cbn. generalize (vopp (Ni (Y 0%nat))). intros; vring. }
    assert (E1 : y1 = Y 1%nat).
    { rewrite E. etransitivity; [|symmetry; exact Y1]. unfold imex_euler_imp, imex_euler_exp, table; cbn.
      generalize (vopp (Ni (Y 0%nat))) (vopp (Ni (Y 1%nat))) (vopp (Ne (Y 0%nat) +v Ns (ev (Y 0%nat)))) (vopp (Ne (Y 1%nat) +v Ns (ev (Y 1%nat)))). intros; vring. }
    rewrite <- E1, E0 in Y1. rewrite Y1 at 1. unfold imex_euler_imp, imex_euler_exp, table; cbn.
    generalize (vopp (Ni y)) (vopp (Ni y1)) (vopp (Ne y +v Ns (ev y))). intros; vring.
  - intros E. exists (fun i => match i with O => y | _ => y1 end). split.
    + intros i Hi. assert (i = 0 \/ i = 1)%nat as [->| ->] by lia; cbn; unfold imex_euler_imp, imex_euler_exp, table; cbn.
      * generalize (vopp (Ni y)). intros; vring.
      * rewrite E at 1. generalize (vopp (Ni y)) (vopp (Ni y1)) (vopp (Ne y +v Ns (ev y))). intros; vring.
    + cbn. unfold imex_euler_imp, imex_euler_exp, table; cbn. rewrite E at 1.
      generalize (vopp (Ni y)) (vopp (Ni y1)) (vopp (Ne y +v Ns (ev y))) (vopp (Ne y1 +v Ns (ev y1))). intros; vring.
Qed.
Print Assumptions imex_euler_formula.

Example imex_euler_example :
  imex_apply imex_euler_imp imex_euler_exp 2 1 (fun v => v) (fun v => (-3) *v v) no_physics (fun v => v) no_limiter
    {| xs := fun _ => vzero; source := fun _ => vzero; xo := vzero |} (fun _ : unit => 1) (fun _ => 2).
Proof. apply imex_euler_formula. apply functional_extensionality; intros i. unfold vopp, no_physics. vunfold. lra. Qed.

(** C20 for IMEX: linear invariants, for every pair of tableaus. *)
Theorem imex_linear_invariants :
  forall (I : Type) A D s dt (Ni Ne Ns ev : vec I -> vec I) st y y1 (l : vec I -> R), (0 < s)%nat ->
  linear_fun l -> (forall z, l (Ni z) = 0) -> (forall z, l (Ne z) = 0) -> (forall z, l (Ns z) = 0) ->
  imex_apply A D s dt Ni Ne Ns ev no_limiter st y y1 -> l y1 = l y.
Proof.
  intros I A D s dt Ni Ne Ns ev st y y1 l Hs Hl H1 H2 H3 H. apply imex_is_textbook in H as (Y & _ & ->); [|exact Hs].
  rewrite (proj1 Hl), (proj2 Hl), (proj1 Hl), !linear_fun_sum by exact Hl.
  rewrite !rsum_0; [ring| |]; intros j _; unfold vopp; rewrite !(proj2 Hl), ?(proj1 Hl), ?H1, ?H2, ?H3; ring.
Qed.
Print Assumptions imex_linear_invariants.

(* ------------------------------------------------------------------ *)
(** C22. *)

(** Explicit schemes: whatever the tableau, formulation, number (>= 1) of subcycles
    and physics, the result is a limited state. *)
Theorem explicit_result_is_limited :
  forall (I : Type) A s (F P : vec I -> vec I) (limiter : option (vec I -> vec I)) dt n store x, (0 < s)%nat -> (0 < n)%nat ->
  let L := match explicit_limiter limiter with Some f => f | None => fun v => v end in
  (forall v, L (L v) = L v) ->
  match limiter with
  | None => True
  | Some lim =>
    (exists z, apply_increment A s L dt F P n store x = lim z) /\
    (exists z, apply_predictor A s L dt F P n store x = lim z) /\
    (forall F1, exists z, apply_linear A s L dt F1 F P n store x = lim z)
  end.
Proof.
  intros I A s F P limiter dt n store x Hs Hn L HL. destruct limiter as [lim|]; [|exact Logic.I].
  change L with lim in *. clear L. unfold apply_increment, apply_predictor, apply_linear, apply_cycles.
  destruct n as [|n]; [lia|].
  split; [|split].
  - rewrite seq_S, fold_left_app. cbn [fold_left Nat.add].
    destruct (fold_left _ (seq 0 n) (store, x)) as [st z].
    destruct (increment_cycle_spec A s lim dt F P st z Hs) as (k & _ & E). eexists. exact E.
  - rewrite seq_S, fold_left_app. cbn [fold_left Nat.add].
    destruct (fold_left _ (seq 0 n) (store, x)) as [st z].
    destruct (predictor_cycle_spec A s lim dt HL F P st z Hs) as (k & _ & E). eexists. exact E.
  - intros F1. rewrite seq_S, fold_left_app. cbn [fold_left Nat.add].
    destruct (fold_left _ (seq 0 n) (store, x)) as [st z].
    unfold linear_cycle, linear_cycle_of. destruct s as [|q]; [lia|]. rewrite seq_S, fold_left_app. cbn [fold_left Nat.add].
    destruct (fold_left _ (seq 0 q) (st, lim z)) as [lhs x1]. unfold linear_stage.
    replace (Nat.ltb (S q * n + q + 1) (S n * S q)) with false by (symmetry; apply Nat.ltb_ge; nia).
    cbn [snd]. eexists. reflexivity.
Qed.
Print Assumptions explicit_result_is_limited.

(** IMEX schemes: the limiter given by the user is never applied.  A state of -1 with
    no terms stays -1 although a limiter to non-negative values was requested. *)
Theorem imex_limiter_ignored_refuted :
  exists (lim : vec unit -> vec unit) y1, 
    let L := match imex_limiter (Some lim) with Some f => f | None => fun v => v end in
    imex_apply imex_euler_imp imex_euler_exp 2 1 no_physics no_physics no_physics (fun v => v) L
      {| xs := fun _ => vzero; source := fun _ => vzero; xo := vzero |} (fun _ : unit => -1) y1 /\
    (forall z, lim z tt >= 0) /\ y1 tt = -1.
Proof.
  exists (fun v _ => Rmax 0 (v tt)), (fun _ => -1). cbn. split; [|split; [|reflexivity]].
  - apply imex_euler_formula. unfold no_physics, vopp. vring.
  - intros z. apply Rle_ge, Rmax_l.
Qed.
Print Assumptions imex_limiter_ignored_refuted.

(* ------------------------------------------------------------------ *)
(** C23. *)

(** Predictor formulation: every tableau. *)
Theorem irk_predictor_is_textbook :
  forall (I : Type) (A : nat -> nat -> R) s dt (N : vec I -> vec I) X0 x y1,
  irk_predictor A s dt N X0 x y1 <-> dirk_step A (A s) s (fun v => vopp (N v)) dt x y1.
Proof. intros. apply irk_predictor_iff. Qed.
Print Assumptions irk_predictor_is_textbook.

(** Increment formulation on a scheme that has not stepped yet (nothing cached), or
    at any later step: what it computes is the method whose diagonal is replaced by
    the first diagonal coefficient. *)
Theorem irk_increment_value :
  forall (I : Type) (A : nat -> nat -> R) s dt (N : vec I -> vec I) st x y1,
  (cached st = None \/ cached st = Some (A 0%nat 0%nat)) ->
  (irk_increment A s dt N st x y1 <->
   dirk_step (fun i j => if Nat.eqb i j then A 0%nat 0%nat else A i j) (A s) s (fun v => vopp (N v)) dt x y1).
Proof.
  intros I A s dt N st x y1 H. rewrite irk_increment_iff.
  assert (E : diag_used A st = A 0%nat 0%nat) by (unfold diag_used; destruct H as [-> | ->]; reflexivity).
  rewrite E. reflexivity.
Qed.
Print Assumptions irk_increment_value.

(** ... and the cache keeps that coefficient in all later steps. *)
Theorem irk_cache_invariant :
  forall (I : Type) (A : nat -> nat -> R) s dt (N : vec I -> vec I) st st1 x, (0 < s)%nat ->
  (cached st = None \/ cached st = Some (A 0%nat 0%nat)) ->
  rfold (irk_inc_stage A dt N x) (seq 0 s) st st1 -> cached st1 = Some (A 0%nat 0%nat).
Proof.
  intros I A s dt N st st1 x Hs H Hr. destruct (inc_forward A dt N x st s st1 Hr) as (_ & Hc & _).
  rewrite (Hc Hs). unfold diag_used. destruct H as [-> | ->]; reflexivity.
Qed.
Print Assumptions irk_cache_invariant.

Lemma dirk_ext {I} A A' b s (F : vec I -> vec I) dt x y1 :
  (forall i j, (j <= i)%nat -> (i < s)%nat -> A i j = A' i j) ->
  dirk_step A b s F dt x y1 -> dirk_step A' b s F dt x y1.
Proof.
  intros H (k & Hk & ->). exists k. split; [|reflexivity]. intros i Hi. rewrite (Hk i Hi) at 1.
  f_equal. f_equal. f_equal. apply vsum_ext. intros j Hj. rewrite H by lia. reflexivity.
Qed.

(** C23, proved extent: tableaus with a constant diagonal (all provided schemes). *)
Theorem irk_formulations_agree_partial :
  forall (I : Type) (A : nat -> nat -> R) s dt (N : vec I -> vec I) st X0 x y1,
  (cached st = None \/ cached st = Some (A 0%nat 0%nat)) -> (forall i, (i < s)%nat -> A i i = A 0%nat 0%nat) ->
  (irk_increment A s dt N st x y1 <-> irk_predictor A s dt N X0 x y1).
Proof.
  intros I A s dt N st X0 x y1 Hc Hd. rewrite irk_increment_value, irk_predictor_is_textbook by exact Hc.
  split; apply dirk_ext; intros i j Hj Hi; destruct (Nat.eqb_spec i j) as [->|]; try reflexivity;
    [symmetry|]; apply Hd; exact Hi.
Qed.
Print Assumptions irk_formulations_agree_partial.

Example irk_provided_schemes_constant_diagonal :
  (forall i, (i < 1)%nat -> tab_ImplicitMidpoint i i = tab_ImplicitMidpoint 0%nat 0%nat) /\
  (forall i, (i < 2)%nat -> tab_QinZhang i i = tab_QinZhang 0%nat 0%nat).
Proof.
  split; intros i Hi; [assert (i = 0)%nat by lia; subst; reflexivity|].
  assert (i = 0 \/ i = 1)%nat as [->| ->] by lia; reflexivity.
Qed.

(** C23 refuted for other diagonally implicit tableaus: the trapezium rule as a
    two-stage tableau, y' = -y, dt = 1 from 1: increment returns 1/4, predictor 1/3. *)
Definition tab_trapezium := table [[0; 0]; [1/2; 1/2]; [1/2; 1/2]].
Theorem irk_formulations_agree_refuted :
  let st := {| cached := None; kst := fun _ => vzero |} in
  let N := fun v : vec unit => v in
  (forall y1, irk_increment tab_trapezium 2 1 N st (fun _ => 1) y1 -> y1 tt = 1/4) /\
  (forall X0 y1, irk_predictor tab_trapezium 2 1 N X0 (fun _ => 1) y1 -> y1 tt = 1/3) /\
  irk_increment tab_trapezium 2 1 N st (fun _ => 1) (fun _ => 1/4) /\
  irk_predictor tab_trapezium 2 1 N (fun _ => vzero) (fun _ => 1) (fun _ => 1/3).
Proof.
  cbv zeta. split; [|split; [|split]].
  - intros y1 H. apply irk_increment_value in H as (k & Hk & E); [|left; reflexivity].
    pose proof (Hk 0%nat ltac:(lia)) as K0. pose proof (Hk 1%nat ltac:(lia)) as K1. clear Hk.
    apply (f_equal (fun f => f tt)) in K0, K1, E.
    unfold tab_trapezium, table, vopp in *; cbn in *; vunfold. lra.
  - intros X0 y1 H. apply irk_predictor_is_textbook in H as (k & Hk & E).
    pose proof (Hk 0%nat ltac:(lia)) as K0. pose proof (Hk 1%nat ltac:(lia)) as K1. clear Hk.
    apply (f_equal (fun f => f tt)) in K0, K1, E.
    unfold tab_trapezium, table, vopp in *; cbn in *; vunfold. lra.
  - apply irk_increment_value; [left; reflexivity|].
    exists (fun i => match i with O => fun _ => -1 | _ => fun _ => -1/2 end). split.
    + intros i Hi. assert (i = 0 \/ i = 1)%nat as [->| ->] by lia; apply functional_extensionality; intros u;
        unfold tab_trapezium, table, vopp; cbn; vunfold; lra.
    + apply functional_extensionality; intros u; unfold tab_trapezium, table, vopp; cbn; vunfold; lra.
  - apply irk_predictor_is_textbook.
    exists (fun i => match i with O => fun _ => -1 | _ => fun _ => -1/3 end). split.
    + intros i Hi. assert (i = 0 \/ i = 1)%nat as [->| ->] by lia; apply functional_extensionality; intros u;
        unfold tab_trapezium, table, vopp; cbn; vunfold; lra.
    + apply functional_extensionality; intros u; unfold tab_trapezium, table, vopp; cbn; vunfold; lra.
Qed.
Print Assumptions irk_formulations_agree_refuted.

Theorem irk_schemes_second_order :
  single_order2 1 tab_ImplicitMidpoint (tab_ImplicitMidpoint 1) /\
  single_order2 2 tab_QinZhang (tab_QinZhang 2).
Proof.
  unfold single_order2, consistent, dot, row_sum, tab_ImplicitMidpoint, tab_QinZhang, table; cbn.
  repeat split; lra.
Qed.
Print Assumptions irk_schemes_second_order.

(* ------------------------------------------------------------------ *)
(** C69: quadratic invariants. *)
Definition bilinear_sym {I} (B : vec I -> vec I -> R) : Prop :=
  (forall x, linear_fun (B x)) /\ (forall x y, B x y = B y x).

Lemma rsum_swap n m (f : nat -> nat -> R) :
  rsum n (fun i => rsum m (fun j => f i j)) = rsum m (fun j => rsum n (fun i => f i j)).
Proof.
  induction n as [|n IH]; cbn; [symmetry; apply rsum_0; reflexivity|]. rewrite IH, <- rsum_add. reflexivity.
Qed.
Lemma rsum_ge n m f : (n <= m)%nat -> (forall j, (n <= j < m)%nat -> f j = 0) -> rsum m f = rsum n f.
Proof.
  intros Hle H. replace m with (n + (m - n))%nat by lia. rewrite rsum_split.
  rewrite (rsum_0 (m - n)); [ring|]. intros k Hk. apply H; lia.
Qed.

(** Every diagonally implicit scheme with the symplectic condition conserves every
    quadratic invariant of the right-hand side. *)
Lemma symplectic_conserves {I} A b s (F : vec I -> vec I) dt y y1 (B : vec I -> vec I -> R) :
  bilinear_sym B -> (forall z, B z (F z) = 0) ->
  (forall i j, (i < j < s)%nat -> A i j = 0) -> symplectic s A b ->
  dirk_step A b s F dt y y1 -> B y1 y1 = B y y.
Proof.
  intros [Hl Hsym] HF Hlow Hsymp (k & Hk & ->).
  assert (La : forall x u v, B x (u +v v) = B x u + B x v) by (intros x u v; apply (Hl x)).
  assert (Ls : forall x a u, B x (a *v u) = a * B x u) by (intros x a u; apply (Hl x)).
  assert (Lsum : forall x n f, B x (vsum n f) = rsum n (fun j => B x (f j))) by (intros; apply linear_fun_sum, Hl).
  set (S := vsum s (fun j => b j *v k j)).
  (* B(y,k_i) *)
  assert (Yk : forall i, (i < s)%nat -> B y (k i) = - dt * rsum s (fun j => A i j * B (k j) (k i))).
  { intros i Hi. pose proof (HF (y +v dt *v vsum (Datatypes.S i) (fun j => A i j *v k j))) as H.
    rewrite <- (Hk i Hi) in H. rewrite Hsym, La, Ls, Lsum, (Hsym _ y) in H.
    replace (rsum s (fun j => A i j * B (k j) (k i))) with (rsum (Datatypes.S i) (fun j => B (k i) (A i j *v k j))).
    - lra.
    - rewrite (rsum_ge (Datatypes.S i) s (fun j => A i j * B (k j) (k i))).
      + apply rsum_ext. intros j _. rewrite Ls, Hsym. reflexivity.
      + lia.
      + intros j Hj. rewrite Hlow by lia. ring. }
  rewrite La, Ls, (Hsym (_ +v _) y), (Hsym (_ +v _) S), !La, !Ls, (Hsym S y).
  assert (E1 : B y S = - dt * rsum s (fun i => rsum s (fun j => b i * A i j * B (k j) (k i)))).
  { unfold S. rewrite Lsum. rewrite <- rsum_scal. apply rsum_ext. intros i Hi. rewrite Ls, Yk by exact Hi.
    replace (b i * (- dt * rsum s (fun j => A i j * B (k j) (k i)))) with (- dt * (b i * rsum s (fun j => A i j * B (k j) (k i)))) by ring.
    rewrite <- rsum_scal. f_equal. apply rsum_ext. intros; ring. }
  assert (E2 : B S S = rsum s (fun i => rsum s (fun j => b i * b j * B (k j) (k i)))).
  { unfold S at 2. rewrite Lsum. apply rsum_ext. intros i Hi. rewrite Ls, Hsym. unfold S. rewrite Lsum, <- rsum_scal.
    apply rsum_ext. intros j Hj. rewrite Ls, (Hsym (k i)). ring. }
  assert (E3 : rsum s (fun i => rsum s (fun j => b i * A i j * B (k j) (k i))) =
               rsum s (fun i => rsum s (fun j => b j * A j i * B (k j) (k i)))).
  { rewrite rsum_swap. apply rsum_ext. intros i _. apply rsum_ext. intros j _. rewrite Hsym. ring. }
  assert (E4 : B S S = 2 * rsum s (fun i => rsum s (fun j => b i * A i j * B (k j) (k i)))).
  { rewrite E2. replace (2 * rsum s (fun i => rsum s (fun j => b i * A i j * B (k j) (k i)))) with
      (rsum s (fun i => rsum s (fun j => b i * A i j * B (k j) (k i))) + rsum s (fun i => rsum s (fun j => b j * A j i * B (k j) (k i))))
      by (rewrite <- E3; ring).
    rewrite <- rsum_add. apply rsum_ext. intros i Hi. rewrite <- rsum_add. apply rsum_ext. intros j Hj.
    rewrite <- (Hsymp i j Hi Hj). ring. }
  rewrite E4, E1. ring.
Qed.

Theorem implicit_schemes_conserve_quadratic_invariants :
  forall (I : Type) dt (N : vec I -> vec I) (B : vec I -> vec I -> R) x y1,
  bilinear_sym B -> (forall z, B z (N z) = 0) ->
  (forall st, (cached st = None \/ cached st = Some (tab_ImplicitMidpoint 0%nat 0%nat)) ->
     irk_increment tab_ImplicitMidpoint 1 dt N st x y1 -> B y1 y1 = B x x) /\
  (forall X0, irk_predictor tab_ImplicitMidpoint 1 dt N X0 x y1 -> B y1 y1 = B x x) /\
  (forall st, (cached st = None \/ cached st = Some (tab_QinZhang 0%nat 0%nat)) ->
     irk_increment tab_QinZhang 2 dt N st x y1 -> B y1 y1 = B x x) /\
  (forall X0, irk_predictor tab_QinZhang 2 dt N X0 x y1 -> B y1 y1 = B x x).
Proof.
  intros I dt N B x y1 HB HN.
  assert (HF : forall z, B z (vopp (N z)) = 0).
  { intros z. unfold vopp. rewrite (proj2 (proj1 HB z)), HN. ring. }
  assert (M : forall X0, irk_predictor tab_ImplicitMidpoint 1 dt N X0 x y1 -> B y1 y1 = B x x).
  { intros X0 H. apply irk_predictor_is_textbook in H.
    eapply symplectic_conserves; [exact HB|exact HF| | |exact H].
    - intros i j Hj. lia.
    - intros i j Hi Hj. assert (i = 0 /\ j = 0)%nat as [-> ->] by lia. unfold tab_ImplicitMidpoint, table; cbn. lra. }
  assert (Q : forall X0, irk_predictor tab_QinZhang 2 dt N X0 x y1 -> B y1 y1 = B x x).
  { intros X0 H. apply irk_predictor_is_textbook in H.
    eapply symplectic_conserves; [exact HB|exact HF| | |exact H].
    - intros i j Hj. assert (i = 0 /\ j = 1)%nat as [-> ->] by lia. reflexivity.
    - intros i j Hi Hj. assert (i = 0 \/ i = 1)%nat as [->| ->] by lia; assert (j = 0 \/ j = 1)%nat as [->| ->] by lia;
        unfold tab_QinZhang, table; cbn; lra. }
  destruct irk_provided_schemes_constant_diagonal as [D1 D2].
  split; [|split; [exact M|split; [|exact Q]]].
  - intros st Hc H. apply (M (fun _ => vzero)).
    apply (irk_formulations_agree_partial I tab_ImplicitMidpoint 1 dt N st (fun _ => vzero) x y1 Hc D1). exact H.
  - intros st Hc H. apply (Q (fun _ => vzero)).
    apply (irk_formulations_agree_partial I tab_QinZhang 2 dt N st (fun _ => vzero) x y1 Hc D2). exact H.
Qed.
Print Assumptions implicit_schemes_conserve_quadratic_invariants.

(** a rotation: non-trivial right-hand side with quadratic invariant *)
Example quadratic_invariant_example :
  let B := fun x y : vec bool => x true * y true + x false * y false in
  let N := fun v : vec bool => fun b : bool => if b then v false else - v true in
  bilinear_sym B /\ (forall z, B z (N z) = 0) /\ N (fun _ => 1) true <> 0 /\
  irk_predictor tab_ImplicitMidpoint 1 2 N (fun _ => vzero) (fun b : bool => if b then 1 else 0) (fun b : bool => if b then 0 else 1).
Proof.
  cbv zeta. repeat split; intros; vunfold; try lra.
  apply irk_predictor_is_textbook. exists (fun _ => fun b : bool => if b then -1/2 else 1/2). split.
  - intros i Hi. assert (i = 0)%nat by lia. subst. apply functional_extensionality; intros [|];
      unfold tab_ImplicitMidpoint, table, vopp; cbn; vunfold; lra.
  - apply functional_extensionality; intros [|]; unfold tab_ImplicitMidpoint, table, vopp; cbn; vunfold; lra.
Qed.

(** C71 fails for the implicit Runge-Kutta schemes: whatever the parametrisation is, with
    the source Functions as created (zero) every sequence of steps is the one without
    physics, in both formulations. *)
Theorem irk_ignores_physics_refuted :
  forall (I : Type) A s dt (N : vec I -> vec I) st xs0 x y src',
  (irk_increment_physics A s dt N st vzero x y src' -> src' = vzero /\ irk_increment A s dt N st x y) /\
  (irk_predictor_physics A s dt N xs0 vzero x y src' -> src' = vzero /\ irk_predictor A s dt N xs0 x y).
Proof.
  intros I A s dt N st xs0 x y src'.
  assert (E : (fun v => N v -v vzero) = N).
  { apply functional_extensionality. intros v. generalize (N v). intros; vring. }
  split; intros (-> & H); rewrite E in H; auto.
Qed.
Print Assumptions irk_ignores_physics_refuted.

(** Implicit midpoint with no dynamics: nothing changes although the tendency is 1, where
    backward Euler (Theta.be_apply) and the explicit schemes add dt. *)
Example irk_ignores_physics_example : forall dt xs0 (x y src' : vec unit),
  irk_predictor_physics tab_ImplicitMidpoint 1 dt (fun _ => vzero) xs0 vzero x y src' -> y = x.
Proof.
  intros dt xs0 x y src' H. apply (irk_ignores_physics_refuted unit _ _ _ _ {| cached := None; kst := fun _ => vzero |}) in H as (_ & H).
  apply irk_predictor_is_textbook in H as (k & Hk & ->). pose proof (Hk 0%nat ltac:(lia)) as H0.
  cbn in H0 |- *. rewrite H0. apply functional_extensionality; intros i. unfold vopp. vunfold. ring.
Qed.
