(** Property C78: the strong-stability-preserving Runge-Kutta schemes keep every convex
    set that one forward Euler step keeps, up to their cfl_limit
    (explicit_runge_kutta.py l.509-690, 693-750; cfl_limit l.574, 582, 590, 666, 674,
    676, 739). *)
From Verif Require Import Base Vec RKSpec RK RKFacts RKProps.
Open Scope R_scope.

(* ------------------------------------------------------------------ *)
(** ** Specification *)
Definition convex_set {I} (K : vec I -> Prop) :=
  forall u v t, 0 <= t <= 1 -> K u -> K v -> K ((1 - t) *v u +v t *v v).
(** One forward Euler step of size tau from any state of K stays in K. *)
Definition euler_keeps {I} (F : vec I -> vec I) (tau : R) (K : vec I -> Prop) :=
  forall v, K v -> K (v +v tau *v F v).
(** The scheme (A, s) keeps convex sets for steps up to C times the Euler step. *)
Definition strong_stability_preserving (A : nat -> nat -> R) (s : nat) (C : R) :=
  forall (I : Type) (F : vec I -> vec I) (K : vec I -> Prop) (tau dt : R) (y y1 : vec I),
  convex_set K -> 0 < tau -> euler_keeps F tau K -> 0 <= dt <= C * tau ->
  K y -> erk_step A s F dt y y1 -> K y1.

(* ------------------------------------------------------------------ *)
(** ** Convex combinations *)
Lemma rsum_nonneg n f : (forall j, (j < n)%nat -> 0 <= f j) -> 0 <= rsum n f.
Proof.
  induction n as [|n IH]; cbn; intros H; [lra|].
  assert (0 <= rsum n f) by (apply IH; intros; apply H; lia).
  assert (0 <= f n) by (apply H; lia). lra.
Qed.
Lemma rsum_zero_terms n f : (forall j, (j < n)%nat -> 0 <= f j) -> rsum n f <= 0 -> forall j, (j < n)%nat -> f j = 0.
Proof.
  induction n as [|n IH]; cbn; intros H Z j Hj; [lia|].
  assert (A : 0 <= rsum n f) by (apply rsum_nonneg; intros; apply H; lia).
  assert (B : 0 <= f n) by (apply H; lia).
  destruct (Nat.eq_dec j n) as [-> | N]; [lra|].
  apply IH; [intros; apply H; lia|lra|lia].
Qed.

Lemma convex_combination {I} (K : vec I -> Prop) y (HK : convex_set K) (Hy : K y) :
  forall n (w : nat -> R) (z : nat -> vec I),
  (forall j, (j < n)%nat -> 0 <= w j) -> rsum n w <= 1 -> (forall j, (j < n)%nat -> K (z j)) ->
  K ((1 - rsum n w) *v y +v vsum n (fun j => w j *v z j)).
Proof.
  induction n as [|n IH]; intros w z Hw HS Hz.
  - cbn. replace ((1 - 0) *v y +v vzero) with y by vring. exact Hy.
  - cbn in HS |- *.
    assert (N : 0 <= rsum n w) by (apply rsum_nonneg; intros; apply Hw; lia).
    assert (W : 0 <= w n) by (apply Hw; lia).
    destruct (Req_dec (w n) 1) as [E|E].
    + assert (Z : forall j, (j < n)%nat -> w j = 0).
      { apply rsum_zero_terms; [intros; apply Hw; lia|lra]. }
      rewrite (rsum_0 n w Z), vsum_0 by (intros j Hj; rewrite Z by exact Hj; vring).
      rewrite E. replace ((1 - (0 + 1)) *v y +v (vzero +v 1 *v z n)) with (z n) by vring. apply Hz; lia.
    + assert (L : 0 < 1 - w n) by lra.
      assert (Q : rsum n (fun j => / (1 - w n) * w j) = / (1 - w n) * rsum n w) by apply rsum_scal.
      assert (P1 : forall j, (j < n)%nat -> 0 <= / (1 - w n) * w j).
      { intros j Hj. apply Rmult_le_pos; [left; apply Rinv_0_lt_compat; exact L|apply Hw; lia]. }
      assert (P2 : rsum n (fun j => / (1 - w n) * w j) <= 1).
      { rewrite Q. apply (Rmult_le_reg_l (1 - w n)); [exact L|].
        rewrite <- Rmult_assoc, Rinv_r by lra. lra. }
      assert (H := HK _ (z n) (w n) ltac:(lra) (IH (fun j => / (1 - w n) * w j) z P1 P2 (fun j Hj => Hz j ltac:(lia))) (Hz n ltac:(lia))).
      match goal with |- K ?b => refine (eq_ind _ K H b _) end; cbv beta.
      rewrite Q.
      replace (vsum n (fun j => (/ (1 - w n) * w j) *v z j)) with (/ (1 - w n) *v vsum n (fun j => w j *v z j)).
      * generalize (vsum n (fun j => w j *v z j)). intros u. vfield. lra.
      * rewrite <- vsum_scal. apply vsum_ext. intros; vring.
Qed.

(* ------------------------------------------------------------------ *)
(** ** Shu-Osher coefficients [lam] of a tableau, radius C *)
Definition lower (A : nat -> nat -> R) (i j : nat) : R := if (j <? i)%nat then a_coef A i j else 0.
Definition shu_osher (A : nat -> nat -> R) (s : nat) (C : R) (lam : nat -> nat -> R) :=
  (forall i j, (i <= s)%nat -> (j < i)%nat -> 0 <= lam i j) /\
  (forall i, (i <= s)%nat -> rsum i (lam i) <= 1) /\
  (forall i j, (i <= s)%nat -> (j < i)%nat ->
     C * lower A i j = lam i j + C * rsum i (fun l => lam i l * lower A l j)).

Lemma vsum_lower {I} A i n (k : nat -> vec I) : (i <= n)%nat ->
  vsum i (fun j => a_coef A i j *v k j) = vsum n (fun j => lower A i j *v k j).
Proof.
  intros H. replace n with (i + (n - i))%nat by lia. rewrite vsum_split.
  rewrite (vsum_0 (n - i)).
  - transitivity (vsum i (fun j => lower A i j *v k j)); [|vring].
    apply vsum_ext. intros j Hj. unfold lower. apply Nat.ltb_lt in Hj. rewrite Hj. reflexivity.
  - intros j Hj. unfold lower. replace (i + j <? i)%nat with false by (symmetry; apply Nat.ltb_ge; lia). vring.
Qed.

Lemma shu_osher_ssp A s C lam : (0 < s)%nat -> 0 < C -> shu_osher A s C lam -> strong_stability_preserving A s C.
Proof.
  intros Hs HC (Lpos & Lsum & Leq) I F K tau dt y y1 HK Htau HE [D0 D1] Hy (k & Hk & ->).
  set (Y := fun i => y +v dt *v vsum i (fun j => a_coef A i j *v k j)).
  assert (HkY : forall j, (j < s)%nat -> k j = F (Y j)) by exact Hk.
  assert (main : forall i, (i <= s)%nat -> K (Y i)).
  { intros i. induction i as [i IH] using lt_wf_ind. intros Hi.
    assert (Z : forall j, (j < i)%nat -> K (Y j +v (dt / C) *v k j)).
    { intros j Hj. assert (KY : K (Y j)) by (apply IH; lia).
      pose proof (HE _ KY) as E. rewrite <- HkY in E by lia.
      set (th := dt / (C * tau)).
      assert (T : 0 <= th <= 1).
      { unfold th. assert (0 < C * tau) by (apply Rmult_lt_0_compat; assumption). split.
        - apply Rmult_le_pos; [exact D0|left; apply Rinv_0_lt_compat; assumption].
        - apply (Rmult_le_reg_r (C * tau)); [assumption|]. unfold Rdiv. rewrite Rmult_assoc, Rinv_l by lra. lra. }
      pose proof (HK _ _ th T KY E) as R.
      match goal with |- K ?b => refine (eq_ind _ K R b _) end; symmetry.
      unfold th. generalize (Y j) (k j). intros u v. vfield. split; lra. }
    pose proof (convex_combination K y HK Hy i (lam i) (fun j => Y j +v (dt / C) *v k j)
                  (fun j Hj => Lpos i j Hi Hj) (Lsum i Hi) Z) as R.
    match goal with |- K ?b => refine (eq_ind _ K R b _) end; symmetry.
    (* Y i - y written with the lower triangular coefficients *)
    assert (YL : forall l, (l <= i)%nat -> Y l = y +v dt *v vsum i (fun j => lower A l j *v k j)).
    { intros l Hl. unfold Y. rewrite (vsum_lower A l i) by exact Hl. reflexivity. }
    rewrite (YL i) by lia.
    transitivity (y +v (dt / C) *v vsum i (fun j => (lam i j + C * rsum i (fun l => lam i l * lower A l j)) *v k j)).
    - rewrite (vsum_ext i (fun j => (lam i j + C * rsum i (fun l => lam i l * lower A l j)) *v k j)
                 (fun j => C *v (lower A i j *v k j))).
      + rewrite vsum_scal. generalize (vsum i (fun j => lower A i j *v k j)). intros u. vfield. lra.
      + intros j Hj. rewrite <- Leq by assumption. vring.
    - assert (E1 : vsum i (fun j => (lam i j + C * rsum i (fun l => lam i l * lower A l j)) *v k j) =
                   vsum i (fun j => lam i j *v k j) +v C *v vsum i (fun j => lam i j *v vsum i (fun m => lower A j m *v k m))).
      { rewrite <- vsum_scal.
        transitivity (vsum i (fun j => lam i j *v k j) +v vsum i (fun m => vsum i (fun j => (C * lam i j * lower A j m) *v k m))).
        - rewrite <- vsum_add. apply vsum_ext. intros j _. rewrite vsum_scal_const.
          replace (rsum i (fun l => C * lam i l * lower A l j)) with (C * rsum i (fun l => lam i l * lower A l j)).
          + vring.
          + rewrite <- rsum_scal. apply rsum_ext. intros; ring.
        - f_equal. rewrite vsum_swap. apply vsum_ext. intros j _. rewrite <- vsum_scal, <- vsum_scal.
          apply vsum_ext. intros; vring. }
      assert (E2 : vsum i (fun j => lam i j *v (Y j +v (dt / C) *v k j)) =
                   rsum i (lam i) *v y +v dt *v vsum i (fun j => lam i j *v vsum i (fun m => lower A j m *v k m))
                   +v (dt / C) *v vsum i (fun j => lam i j *v k j)).
      { rewrite <- vsum_scal_const, <- !vsum_scal, <- !vsum_add. apply vsum_ext. intros j Hj.
        rewrite YL by lia. vring. }
      rewrite E1, E2.
      generalize (vsum i (fun j => lam i j *v k j)) (vsum i (fun j => lam i j *v vsum i (fun m => lower A j m *v k m))).
      intros u v. vfield. lra. }
  pose proof (main s ltac:(lia)) as R. unfold Y in R.
  replace (vsum s (fun j => b_coef A s j *v k j)) with (vsum s (fun j => a_coef A s j *v k j)); [exact R|].
  apply vsum_ext. intros j _. unfold a_coef, b_coef. destruct s as [|q]; [lia|].
  replace (S q - 1)%nat with q by lia. reflexivity.
Qed.

(* ------------------------------------------------------------------ *)
(** ** The schemes *)
Definition shu_2_2 := table
  [[];
   [1];
   [0; 1 / 2]].
Definition shu_2_3 := table
  [[];
   [1];
   [0; 1];
   [0; 0; 2 / 3]].
Definition shu_2_4 := table
  [[];
   [1];
   [0; 1];
   [0; 0; 1];
   [0; 0; 0; 3 / 4]].
Definition shu_3_3 := table
  [[];
   [1];
   [0; 1 / 4];
   [0; 0; 2 / 3]].
Definition shu_3_4 := table
  [[];
   [1];
   [0; 1];
   [0; 0; 1 / 3];
   [0; 0; 0; 1]].
Definition shu_3_5 := table
  [[];
   [99999996493481516761 / 100000000000000000000];
   [350651836028228126703262876068879 / 10000000000000000000000000000000000000000; 99999996493481516761 / 100000000000000000000];
   [5329419610167843845756486711115798497638263681 / 10000000000000000000000000000000000000000000000000000000000000; 1519860692490921953669096448960279 / 100000000000000000000000000000000000000000; 433438665661050249361 / 1000000000000000000000];
   [2411608956609675515021186857073083220829574795019736686819557606250785435264079 / 1250000000000000000000000000000000000000000000000000000000000000000000000000000000; 6042134719767039833838078902106669991265553561 / 12500000000000000000000000000000000000000000000000000000000000; 1723115035226014332809396309851199 / 125000000000000000000000000000000000000000; 113373028757011925041 / 125000000000000000000];
   [32593681020707317271429987807897218865308169748143537629312511504389499510212757338396168200850715893 / 156250000000000000000000000000000000000000000000000000000000000000000000000000000000000000000000000000; 2923615568411581192309509939589044188871528063801230018253694040445793498681987 / 1562500000000000000000000000000000000000000000000000000000000000000000000000000000; 34795179370149106669363712379226061816557380933 / 15625000000000000000000000000000000000000000000000000000000000; 392341123122944887480220519083147 / 15625000000000000000000000000000000000000; 98691161569692070533 / 125000000000000000000]].
Definition shu_4_5 := table
  [[];
   [1846132369755973 / 3125000000000000];
   [3061452719945129796400151661 / 78125000000000000000000000000000; 13889079342135543 / 25000000000000000];
   [1735578194641924503647875174454413719307 / 976562500000000000000000000000000000000000000000; 7873901295809673122435974641 / 312500000000000000000000000000000; 4748159944563113 / 12500000000000000];
   [4254616226863456078992912967620591258054988815119857 / 24414062500000000000000000000000000000000000000000000000000000000; 19315203847476147315147322211490794004291 / 7812500000000000000000000000000000000000000000000; 11647541651713862849589795563 / 312500000000000000000000000000000; 20545548083006349 / 25000000000000000];
   [2474187987065949917246591878874918860606321336036136867433701463448498420769 / 122070312500000000000000000000000000000000000000000000000000000000000000000000000; 11224799596844308554795351878344752787298437863210455365593294547 / 39062500000000000000000000000000000000000000000000000000000000000; 9478862351237732689817786830734713610533371 / 1562500000000000000000000000000000000000000000000; 16720137820717260078486791150333 / 125000000000000000000000000000000; 1704096423282383 / 5000000000000000]].

Ltac small i := destruct i as [|[|[|[|[|[|i]]]]]]; try (exfalso; lia).
Ltac shu_tac :=
  split; [intros i j Hi Hj; small i; small j; unfold lower, a_coef; cbn; unfold table; cbn; lra|
  split; [intros i Hi; small i; unfold lower, a_coef; cbn; unfold table; cbn; lra|
          intros i j Hi Hj; small i; small j; unfold lower, a_coef; cbn; unfold table; cbn; lra]].

Lemma ssprk_strong_stability :
  strong_stability_preserving tab_SSPRK2_2 2 1 /\
  strong_stability_preserving tab_SSPRK2_3 3 2 /\
  strong_stability_preserving tab_SSPRK2_4 4 3 /\
  strong_stability_preserving tab_SSPRK3_3 3 1 /\
  strong_stability_preserving tab_SSPRK3_4 4 2.
Proof.
  split; [|split; [|split; [|split]]].
  - apply (shu_osher_ssp _ _ _ shu_2_2); [lia|lra|unfold shu_2_2, tab_SSPRK2_2, table; shu_tac].
  - apply (shu_osher_ssp _ _ _ shu_2_3); [lia|lra|unfold shu_2_3, tab_SSPRK2_3, table; shu_tac].
  - apply (shu_osher_ssp _ _ _ shu_2_4); [lia|lra|unfold shu_2_4, tab_SSPRK2_4, table; shu_tac].
  - apply (shu_osher_ssp _ _ _ shu_3_3); [lia|lra|unfold shu_3_3, tab_SSPRK3_3, table; shu_tac].
  - apply (shu_osher_ssp _ _ _ shu_3_4); [lia|lra|unfold shu_3_4, tab_SSPRK3_4, table; shu_tac].
Qed.
Lemma ssp_weaken A s C C' : strong_stability_preserving A s C -> C' <= C -> strong_stability_preserving A s C'.
Proof.
  intros H HC I F K tau dt y y1 HK Ht HE [D0 D1]. apply (H I F K tau dt y y1 HK Ht HE). split; [exact D0|].
  apply (Rle_trans _ _ _ D1). apply Rmult_le_compat_r; lra.
Qed.

(** C78.  Every SSPRK2 or SSPRK3 with at most 4 stages that can be constructed keeps
    convex sets up to the declared cfl_limit; other numbers of stages are refused. *)
Theorem ssprk_keeps_convex_sets :
  forall (stages : Z) A s cfl,
  (SSPRK2 stages = Ok (A, s, cfl) -> strong_stability_preserving A s cfl) /\
  (SSPRK3 stages = Ok (A, s, cfl) -> (s <= 4)%nat -> strong_stability_preserving A s cfl).
Proof.
  intros st A s cfl. destruct ssprk_strong_stability as (H1 & H2 & H3 & H4 & H5). unfold SSPRK2, SSPRK3. split.
  - destruct (Z.eqb st 2); [intros E; injection E as <- <- <-; exact H1|].
    destruct (Z.eqb st 3); [intros E; injection E as <- <- <-; exact H2|].
    destruct (Z.eqb st 4); [intros E; injection E as <- <- <-; exact H3|discriminate].
  - destruct (Z.eqb st 3); [intros E _; injection E as <- <- <-; exact H4|].
    destruct (Z.eqb st 4); [intros E _; injection E as <- <- <-; exact H5|].
    destruct (Z.eqb st 5); [intros E L; injection E as <- <- <-; lia|discriminate].
Qed.
Print Assumptions ssprk_keeps_convex_sets.

(** The five-stage schemes: up to their declared limit less one part in 10^7 (SSPRK3)
    or in 8000 (SSPRK4): their coefficients are rounded. *)
Theorem ssprk_five_stage_partial :
  forall (stages : Z) A s cfl,
  (SSPRK3 stages = Ok (A, s, cfl) -> s = 5%nat -> strong_stability_preserving A s (cfl * (1 - 1 / 10 ^ 7))) /\
  (SSPRK4 stages = Ok (A, s, cfl) -> strong_stability_preserving A s (cfl * (1 - 1 / 8000))).
Proof.
  intros st A s cfl. unfold SSPRK3, SSPRK4. split.
  - destruct (Z.eqb st 3); [intros E E5; injection E as _ <- _; discriminate|].
    destruct (Z.eqb st 4); [intros E E5; injection E as _ <- _; discriminate|].
    destruct (Z.eqb st 5); [intros E _; injection E as <- <- <-|discriminate].
    apply (ssp_weaken _ _ 2.6506291); [|lra].
    apply (shu_osher_ssp _ _ _ shu_3_5); [lia|lra|unfold shu_3_5, tab_SSPRK3_5, table; shu_tac].
  - destruct (Z.eqb st 5); [intros E; injection E as <- <- <-|discriminate].
    apply (ssp_weaken _ _ 1.508); [|lra].
    apply (shu_osher_ssp _ _ _ shu_4_5); [lia|lra|unfold shu_4_5, tab_SSPRK4_5, table; shu_tac].
Qed.
Print Assumptions ssprk_five_stage_partial.

(** The code: increment and predictor formulation, any number of subcycles. *)
Theorem ssprk_apply_keeps_convex_sets :
  forall (I : Type) A s C (F P : vec I -> vec I) (K : vec I -> Prop) tau dt n store x,
  strong_stability_preserving A s C -> (0 < s)%nat -> convex_set K -> 0 < tau ->
  euler_keeps (fun v => F v +v P v) tau K -> 0 <= dt <= C * tau -> K x ->
  K (apply_increment A s no_limiter dt F P n store x) /\
  K (apply_predictor A s no_limiter dt F P n store x).
Proof.
  intros I A s C F P K tau dt n store x H Hs HK Ht HE HD Hx.
  assert (G : forall m y, erk_steps A s (total F P) dt m x y -> K y).
  { induction m as [|m IH]; intros y; cbn; [intros ->; exact Hx|].
    intros (z & Hz & Hy). exact (H I (total F P) K tau dt z y HK Ht HE HD (IH z Hz) Hy). }
  destruct (subcycled_runge_kutta I A s F P dt n store x Hs) as [H1 H2]. split; eapply G; eassumption.
Qed.
Print Assumptions ssprk_apply_keeps_convex_sets.

(** Consequence: a convex functional (a norm, the total variation, the negative of the
    minimum, ...) that forward Euler does not increase is not increased. *)
Corollary ssprk_convex_functional :
  forall (I : Type) A s C (F : vec I -> vec I) (phi : vec I -> R) tau dt y y1,
  strong_stability_preserving A s C ->
  (forall u v t, 0 <= t <= 1 -> phi ((1 - t) *v u +v t *v v) <= (1 - t) * phi u + t * phi v) ->
  0 < tau -> (forall v, phi (v +v tau *v F v) <= phi v) -> 0 <= dt <= C * tau ->
  erk_step A s F dt y y1 -> phi y1 <= phi y.
Proof.
  intros I A s C F phi tau dt y y1 H HC Ht HE HD HS.
  apply (H I F (fun v => phi v <= phi y) tau dt y y1).
  - intros u v t T Hu Hv. cbv beta in *. pose proof (HC u v t T). nra.
  - exact Ht.
  - intros v Hv. cbv beta in *. pose proof (HE v). lra.
  - exact HD.
  - cbv beta. lra.
  - exact HS.
Qed.
Print Assumptions ssprk_convex_functional.

(** The limits are sharp: first-order upwind advection of non-negative values, for which
    forward Euler is positive up to step 1. *)
Definition upwind (v : vec nat) : vec nat := fun i => match i with O => 0 | S j => v j end - v i.
Definition nonneg (v : vec nat) : Prop := forall i, 0 <= v i.
Definition spike : vec nat := fun i => match i with O => 1 | _ => 0 end.
Lemma nonneg_convex : convex_set nonneg.
Proof. intros u v t T Hu Hv i. vunfold. specialize (Hu i). specialize (Hv i). nra. Qed.
Lemma upwind_euler : euler_keeps upwind 1 nonneg.
Proof. intros v H i. vunfold. unfold upwind. pose proof (H i). destruct i as [|j]; [lra|]. pose proof (H j). lra. Qed.
Lemma spike_nonneg : nonneg spike. Proof. intros [|i]; cbn; lra. Qed.

Lemma not_ssp A s C m : (0 < s)%nat -> 0 <= C ->
  snd (increment_cycle A s no_limiter C upwind no_physics (fun _ => vzero) spike) m < 0 ->
  ~ strong_stability_preserving A s C.
Proof.
  intros Hs HC HN H.
  assert (E : erk_step A s (total upwind no_physics) C spike
                (snd (increment_cycle A s no_limiter C upwind no_physics (fun _ => vzero) spike))).
  { apply (increment_is_textbook nat A s upwind no_physics C (fun _ => vzero) spike _ Hs). reflexivity. }
  assert (K : nonneg (snd (increment_cycle A s no_limiter C upwind no_physics (fun _ => vzero) spike))).
  { apply (H nat (total upwind no_physics) nonneg 1 C spike _ nonneg_convex ltac:(lra)); [|lra|exact spike_nonneg|exact E].
    intros v Hv. unfold total, no_physics. replace (upwind v +v vzero) with (upwind v) by vring. exact (upwind_euler v Hv). }
  specialize (K m). lra.
Qed.
Ltac compute_step := unfold increment_cycle; cbn; unfold increment_stage; cbn;
  unfold rhs_physics_then_limit, no_limiter, no_physics, upd, axpy; cbn;
  unfold upwind, spike; vunfold; cbn.
Theorem ssprk_limits_sharp :
  forall (stages : Z) A s cfl C,
  (SSPRK2 stages = Ok (A, s, cfl) -> cfl < C -> ~ strong_stability_preserving A s C) /\
  (SSPRK3 stages = Ok (A, s, cfl) -> (s <= 4)%nat -> cfl < C -> ~ strong_stability_preserving A s C).
Proof.
  intros st A s cfl C. unfold SSPRK2, SSPRK3. split.
  - destruct (Z.eqb st 2); [intros E HC; injection E as <- <- <-|].
    { apply (not_ssp _ _ _ 1%nat); [lia|lra|]. unfold tab_SSPRK2_2, table. compute_step. nra. }
    destruct (Z.eqb st 3); [intros E HC; injection E as <- <- <-|].
    { apply (not_ssp _ _ _ 2%nat); [lia|lra|]. unfold tab_SSPRK2_3, table. compute_step.
      match goal with |- ?a < 0 => replace a with (- (C * C * (C - 2) / 4)) by field end.
      assert (0 < C * C * (C - 2)) by (repeat apply Rmult_lt_0_compat; lra). lra. }
    destruct (Z.eqb st 4); [intros E HC; injection E as <- <- <-|discriminate].
    { apply (not_ssp _ _ _ 3%nat); [lia|lra|]. unfold tab_SSPRK2_4, table. compute_step.
      match goal with |- ?a < 0 => replace a with (- (C * C * C * (C - 3) / 27)) by field end.
      assert (0 < C * C * C * (C - 3)) by (repeat apply Rmult_lt_0_compat; lra). lra. }
  - destruct (Z.eqb st 3); [intros E _ HC; injection E as <- <- <-|].
    { apply (not_ssp _ _ _ 2%nat); [lia|lra|]. unfold tab_SSPRK3_3, table. compute_step.
      match goal with |- ?a < 0 => replace a with (- (C * C * (C - 1) / 2)) by field end.
      assert (0 < C * C * (C - 1)) by (repeat apply Rmult_lt_0_compat; lra). lra. }
    destruct (Z.eqb st 4); [intros E _ HC; injection E as <- <- <-|].
    { apply (not_ssp _ _ _ 3%nat); [lia|lra|]. unfold tab_SSPRK3_4, table. compute_step.
      match goal with |- ?a < 0 => replace a with (- (C * C * C * (C - 2) / 12)) by field end.
      assert (0 < C * C * C * (C - 2)) by (repeat apply Rmult_lt_0_compat; lra). lra. }
    destruct (Z.eqb st 5); [intros E L; injection E as <- <- <-; lia|discriminate].
Qed.
Print Assumptions ssprk_limits_sharp.

(** Non-trivial instance: upwind advection of non-negative values. *)
Example ssprk_upwind_example : forall dt n store x, 0 <= dt <= 2 -> nonneg x ->
  nonneg (apply_increment tab_SSPRK3_4 4 no_limiter dt upwind no_physics n store x).
Proof.
  intros dt n store x HD Hx.
  destruct ssprk_strong_stability as (_ & _ & _ & _ & H5).
  refine (proj1 (ssprk_apply_keeps_convex_sets nat tab_SSPRK3_4 4 2 upwind no_physics nonneg 1 dt n store x H5 ltac:(lia) nonneg_convex ltac:(lra) _ ltac:(lra) Hx)).
  intros v Hv. unfold no_physics. replace (upwind v +v vzero) with (upwind v) by vring. exact (upwind_euler v Hv).
Qed.

(** Other numbers of stages are refused. *)
Theorem ssprk_stages :
  forall stages : Z,
  (SSPRK2 stages = Err ValueError <-> stages <> 2 /\ stages <> 3 /\ stages <> 4)%Z /\
  (SSPRK3 stages = Err ValueError <-> stages <> 3 /\ stages <> 4 /\ stages <> 5)%Z /\
  (SSPRK4 stages = Err ValueError <-> stages <> 5)%Z /\
  (forall A s cfl, SSPRK2 stages = Ok (A, s, cfl) \/ SSPRK3 stages = Ok (A, s, cfl) \/ SSPRK4 stages = Ok (A, s, cfl) ->
     stages = Z.of_nat s /\ 0 < cfl).
Proof.
  intros st. unfold SSPRK2, SSPRK3, SSPRK4.
  destruct (Z.eqb_spec st 2), (Z.eqb_spec st 3), (Z.eqb_spec st 4), (Z.eqb_spec st 5);
    try (exfalso; lia);
    (repeat split; try discriminate; try lia;
     try (intros; exfalso; lia);
     match goal with H : _ |- _ => destruct H as [H|[H|H]] end; try discriminate H;
     injection H as _ <- <-; first [lia|lra]).
Qed.
Print Assumptions ssprk_stages.
