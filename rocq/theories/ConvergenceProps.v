(** C138: Runge-Kutta schemes converge with their advertised order, for nonlinear problems and variable step sizes. *)
From Coq Require Import Lra Lia.
From Verif Require Import Base Vec RK RKSpec RKFacts RKProps IMEXSpec IMEX IMEXFacts IMEXProps ConvergenceSpec ConvergenceFacts ConvergenceExact ConvergenceTrees ConvergenceRK ConvergenceMain.
Open Scope R_scope.

(** ** Additive Runge-Kutta methods of order up to four converge: the error after any number of steps is at most C (initial error + h^p + delta), where delta is the amount by which the order conditions are missed *)
Theorem additive_runge_kutta_converges :
  forall (I : Type) (p m s : nat) (F : nat -> vec I -> vec I) (y : R -> vec I) (t0 T Ab L : R) (U : vec I -> Prop),
  finite_index I -> (1 <= p <= 4)%nat -> 0 <= Ab -> 0 <= L ->
  (forall q, (q < m)%nat -> lipschitz L (F q) U /\ smooth p (F q) (along y t0 T)) -> neighbourhood y t0 T U -> solves m F y t0 T ->
  exists C h0, 0 <= C /\ 0 < h0 /\
  forall a b delta h hm n (x : nat -> vec I) e0,
  coefficients_at_most a b Ab -> 0 <= delta -> ark_order m s a b p delta -> step_sizes h hm n t0 T -> hm <= h0 ->
  (forall k, (k < n)%nat -> ark_step m s a b F U (h k) (x k) (x (S k))) ->
  0 <= e0 -> sup_le (x 0%nat -v y t0) e0 ->
  sup_le (x n -v y (t0 + rsum n h)) (C * (e0 + hm ^ p + delta)).
Proof.
  intros I p m s F y t0 T Ab L U fin p4 A0 L0 HF nb sol.
  destruct (smooth_all p m F (along y t0 T) ltac:(intros q Hq; apply (HF q Hq))) as (D1 & D2 & D3 & M & r & r0 & M0 & sm).
  destruct (converges p m s F y t0 T Ab L U D1 D2 D3 M r fin p4 r0 M0 A0 sm sol ltac:(intros q Hq; apply (HF q Hq)) nb L0) as (C & h0 & HC & H0 & H).
  exists C, h0. split; [exact HC|]. split; [exact H0|]. intros a b delta h hm n x e0 Hc d0 oc (Hm & Hh & HT) Hm' Hst He Hx. apply (H a b delta h hm n x e0); try assumption. split; assumption.
Qed.
Print Assumptions additive_runge_kutta_converges.

(** ** Explicit schemes *)
Definition erk_order (p : nat) (A : nat -> nat -> R) (s : nat) : Prop :=
  match p with 1%nat => has_order1 A s | 2%nat => has_order2 A s | 3%nat => has_order3 A s | 4%nat => has_order4 A s | _ => False end.
Definition e_a (A : nat -> nat -> R) (q i j : nat) : R := if Nat.ltb j i then a_coef A i j else 0.
Definition e_b (A : nat -> nat -> R) (s q i : nat) : R := b_coef A s i.

Lemma rsum_masked s i (f : nat -> R) : (i <= s)%nat -> rsum s (fun j => if Nat.ltb j i then f j else 0) = rsum i f.
Proof.
  intros H. rewrite (rsum_ge i s); [|exact H|intros j Hj; destruct (Nat.ltb_spec j i); [lia|reflexivity]].
  apply rsum_ext. intros j Hj. destruct (Nat.ltb_spec j i); [reflexivity|lia].
Qed.
Lemma rsum_masked_mul s i (f g : nat -> R) : (i <= s)%nat -> rsum s (fun j => (if Nat.ltb j i then f j else 0) * g j) = rsum i (fun j => f j * g j).
Proof. intros H. rewrite <- (rsum_masked s i) by exact H. apply rsum_ext. intros j _. destruct (Nat.ltb j i); ring. Qed.
Lemma vsum_masked {I} s i (f : nat -> vec I) (c : nat -> R) : (i <= s)%nat -> vsum s (fun j => (if Nat.ltb j i then c j else 0) *v f j) = vsum i (fun j => c j *v f j).
Proof.
  intros H. apply functional_extensionality. intros k. rewrite !vsum_at. exact (rsum_masked_mul s i c (fun j => f j k) H).
Qed.
Lemma e_cc A s q i : (i <= s)%nat -> cc s (e_a A) q i = c_coef A i.
Proof. intros H. unfold cc, e_a, c_coef. apply rsum_masked. exact H. Qed.
Lemma e_sum A s q i (f g : nat -> R) : (i <= s)%nat -> (forall j, (j < i)%nat -> f j = g j) -> rsum s (fun j => e_a A q i j * f j) = rsum i (fun j => a_coef A i j * g j).
Proof. intros H E. unfold e_a. rewrite rsum_masked_mul by exact H. apply rsum_ext. intros j Hj. rewrite E by exact Hj. reflexivity. Qed.
Lemma e_dd A s q t i : (i <= s)%nat -> dd s (e_a A) q t i = rsum i (fun j => a_coef A i j * c_coef A j).
Proof. intros H. unfold dd. apply e_sum; [exact H|]. intros j Hj. apply e_cc. lia. Qed.
Lemma near_ext delta x x' y : x = x' -> near_to delta x' y -> near_to delta x y. Proof. intros ->. auto. Qed.
Lemma near_0 delta x y : 0 <= delta -> x = y -> near_to delta x y.
Proof. intros H ->. unfold near_to. replace (y - y) with 0 by ring. rewrite Rabs_R0. exact H. Qed.

Definition near_erk (p : nat) (delta : R) (A : nat -> nat -> R) (s : nat) : Prop :=
  near_to delta (rsum s (b_coef A s)) 1 /\
  ((2 <= p)%nat -> near_to delta (rsum s (fun i => b_coef A s i * c_coef A i)) (1/2)) /\
  ((3 <= p)%nat -> near_to delta (rsum s (fun i => b_coef A s i * c_coef A i ^ 2)) (1/3) /\ near_to delta (rsum s (fun i => b_coef A s i * rsum i (fun j => a_coef A i j * c_coef A j))) (1/6)) /\
  ((4 <= p)%nat -> near_to delta (rsum s (fun i => b_coef A s i * c_coef A i ^ 3)) (1/4) /\
     near_to delta (rsum s (fun i => b_coef A s i * (c_coef A i * rsum i (fun j => a_coef A i j * c_coef A j)))) (1/8) /\
     near_to delta (rsum s (fun i => b_coef A s i * rsum i (fun j => a_coef A i j * c_coef A j ^ 2))) (1/12) /\
     near_to delta (rsum s (fun i => b_coef A s i * rsum i (fun j => a_coef A i j * rsum j (fun l => a_coef A j l * c_coef A l)))) (1/24)).
Lemma erk_order_near p A s : erk_order p A s -> near_erk p 0 A s.
Proof.
  intros H. destruct p as [|[|[|[|[|p]]]]]; cbn [erk_order] in H; try contradiction; unfold has_order4, has_order3, has_order2, has_order1, order1, order2, order3a, order3b, order4a, order4b, order4c, order4d in H;
    repeat match goal with X : _ /\ _ |- _ => destruct X end; unfold near_erk; (split; [apply near_0; [lra|assumption]|]);
    repeat split; intros; try lia; apply near_0; try lra; assumption.
Qed.
Lemma near_erk_ark p delta A s : near_erk p delta A s -> ark_order 1 s (e_a A) (e_b A s) p delta.
Proof.
  intros (H1 & H2 & H3 & H4). unfold ark_order, e_b. split; [intros _ q _; exact H1|]. split; [|split].
  - intros Hp q u _ _. eapply near_ext; [|exact (H2 Hp)]. apply rsum_ext. intros i Hi. rewrite e_cc by lia. reflexivity.
  - intros Hp q u v _ _ _. destruct (H3 Hp) as [Ha Hb]. split.
    + eapply near_ext; [|exact Ha]. apply rsum_ext. intros i Hi. rewrite !e_cc by lia. ring.
    + eapply near_ext; [|exact Hb]. apply rsum_ext. intros i Hi. rewrite e_dd by lia. reflexivity.
  - intros Hp q u v w _ _ _ _. destruct (H4 Hp) as (Ha & Hb & Hc & Hd). split; [|split; [|split]].
    + eapply near_ext; [|exact Ha]. apply rsum_ext. intros i Hi. rewrite !e_cc by lia. ring.
    + eapply near_ext; [|exact Hb]. apply rsum_ext. intros i Hi. rewrite e_cc, e_dd by lia. reflexivity.
    + eapply near_ext; [|exact Hc]. apply rsum_ext. intros i Hi. f_equal. apply e_sum; [lia|]. intros j Hj. rewrite !e_cc by lia. ring.
    + eapply near_ext; [|exact Hd]. apply rsum_ext. intros i Hi. f_equal. apply e_sum; [lia|]. intros j Hj. apply e_dd. lia.
Qed.
Lemma erk_is_ark {I} A s (F : vec I -> vec I) h x x' : erk_step A s F h x x' -> ark_step 1 s (e_a A) (e_b A s) (fun _ => F) everywhere h x x'.
Proof.
  intros (k & K1 & K2). assert (E : forall i, (i < s)%nat -> vsum 1 (fun _ => vsum s (fun j => e_a A 0 i j *v k j)) = vsum i (fun j => a_coef A i j *v k j)).
  { intros i Hi. cbn [vsum]. unfold e_a. rewrite vsum_masked by lia. vring. }
  exists (fun _ => k). split; [intros; exact Logic.I|]. split.
  - intros q i _ Hi. rewrite (K1 i Hi) at 1. f_equal. f_equal. f_equal. symmetry. apply (E i Hi).
  - rewrite K2. cbn [vsum]. unfold e_b. vring.
Qed.
Definition bounded_table (A : nat -> nat -> R) (B : R) : Prop := 0 <= B /\ forall i j, Rabs (A i j) <= B.
Lemma e_bounded A s B : bounded_table A B -> coefficients_at_most (e_a A) (e_b A s) B.
Proof.
  intros [B0 H] q i j. split; [|apply H]. unfold e_a. destruct (Nat.ltb j i); [|rewrite Rabs_R0; exact B0]. destruct i; cbn [a_coef]; [rewrite Rabs_R0; exact B0|apply H].
Qed.
Lemma e_no_implicit A : no_implicit (e_a A).
Proof. intros q i j H. unfold e_a. destruct (Nat.ltb_spec j i); [lia|reflexivity]. Qed.
Lemma list_bound (l : list R) : exists B, 0 <= B /\ forall j, Rabs (nth j l 0) <= B.
Proof.
  induction l as [|x l (B & B0 & H)]; [exists 0; split; [lra|]; intros [|j]; cbn; rewrite Rabs_R0; lra|].
  exists (Rmax (Rabs x) B). split; [eapply Rle_trans; [exact B0|apply Rmax_r]|]. intros [|j]; cbn [nth]; [apply Rmax_l|eapply Rle_trans; [apply H|apply Rmax_r]].
Qed.
Lemma table_bounded rows : exists B, bounded_table (table rows) B.
Proof.
  induction rows as [|x l (B & B0 & H)].
  - exists 0. split; [lra|]. intros i j. unfold table. replace (nth i [] []) with (@nil R) by (destruct i; reflexivity). replace (nth j [] 0) with 0 by (destruct j; reflexivity). rewrite Rabs_R0. lra.
  - destruct (list_bound x) as (C & C0 & HC). exists (Rmax C B). split; [eapply Rle_trans; [exact B0|apply Rmax_r]|]. intros [|i] j; unfold table; cbn [nth]; [eapply Rle_trans; [apply HC|apply Rmax_l]|].
    eapply Rle_trans; [apply (H i j)|apply Rmax_r].
Qed.

(** one cycle of ExplicitRungeKutta in either formulation *)
Definition explicit_cycle {I} (A : nat -> nat -> R) (s : nat) (F P : vec I -> vec I) (h : R) (x x' : vec I) : Prop :=
  exists store, x' = snd (increment_cycle A s no_limiter h F P store x) \/ x' = snd (predictor_cycle A s no_limiter h F P store x).
Lemma explicit_cycle_ark {I} A s (F P : vec I -> vec I) h x x' : (0 < s)%nat -> explicit_cycle A s F P h x x' -> ark_step 1 s (e_a A) (e_b A s) (fun _ => total F P) everywhere h x x'.
Proof. intros Hs (st & [H|H]); apply erk_is_ark; [apply (increment_is_textbook I A s F P h st x x' Hs)|apply (predictor_is_textbook I A s F P h st x x' Hs)]; symmetry; exact H. Qed.
Lemma solution_solves {I} (F : vec I -> vec I) y t0 T : solution_of F y t0 T -> solves 1 (fun _ => F) y t0 T.
Proof. intros H t i Ht. cbn [vsum]. replace ((vzero +v F (y t)) i) with (F (y t) i) by (vunfold; ring). apply H. exact Ht. Qed.

(** C138.  Any coefficient array that meets the order conditions up to p: the error after any number of cycles, of any sizes at most hm, is at most C (initial error + hm^p).
    F need only be Lipschitz near the solution; the stage values are shown to stay there. *)
Theorem explicit_runge_kutta_converges :
  forall (I : Type) (A : nat -> nat -> R) (B : R) (s p : nat) (F P : vec I -> vec I) (y : R -> vec I) (t0 T L : R) (U : vec I -> Prop),
  finite_index I -> (0 < s)%nat -> bounded_table A B -> erk_order p A s -> regular p (total F P) y t0 T L U -> solution_of (total F P) y t0 T ->
  exists C h0 e1, 0 <= C /\ 0 < h0 /\ 0 < e1 /\
  forall h hm n (x : nat -> vec I) e0,
  step_sizes h hm n t0 T -> hm <= h0 -> (forall k, (k < n)%nat -> explicit_cycle A s F P (h k) (x k) (x (S k))) ->
  0 <= e0 <= e1 -> sup_le (x 0%nat -v y t0) e0 -> sup_le (x n -v y (t0 + rsum n h)) (C * (e0 + hm ^ p)).
Proof.
  intros I A B s p F P y t0 T L U fin Hs HB Ho (Lp & nb & sm) sol.
  assert (p4 : (1 <= p <= 4)%nat) by (destruct p as [|[|[|[|[|p]]]]]; cbn in Ho; try contradiction; lia).
  destruct (smooth_all p 1 (fun _ => total F P) (along y t0 T) ltac:(intros; exact sm)) as (D1 & D2 & D3 & M & r & r0 & M0 & sm').
  destruct (explicit_converges p 1 s (fun _ => total F P) y t0 T B L U D1 D2 D3 M r fin p4 r0 M0 (proj1 HB) sm' (solution_solves _ _ _ _ sol) ltac:(intros; exact Lp) nb (proj1 Lp)) as (C & h0 & e1 & HC & H0 & E1 & H).
  exists C, h0, e1. split; [exact HC|]. split; [exact H0|]. split; [exact E1|]. intros h hm n x e0 (Hm & Hh & HT) Hm' Hst He Hx.
  replace (C * (e0 + hm ^ p)) with (C * (e0 + hm ^ p + 0)) by ring.
  apply (H (e_a A) (e_b A s) 0 h hm n x e0); try assumption; [apply e_bounded; exact HB|lra|apply near_erk_ark; apply erk_order_near; exact Ho|apply e_no_implicit|split; assumption|].
  intros k Hk. apply explicit_cycle_ark; [exact Hs|]. apply Hst. exact Hk.
Qed.
Print Assumptions explicit_runge_kutta_converges.

Definition explicit_schemes : list (nat * (nat -> nat -> R) * nat) :=
  [(1, tab_ForwardEuler, 1); (2, tab_SSPRK2_2, 2); (2, tab_SSPRK2_3, 3); (2, tab_SSPRK2_4, 4); (3, tab_SSPRK3_3, 3); (3, tab_SSPRK3_4, 4); (4, tab_RK4, 4)]%nat.
(** C138.  The provided schemes with exact coefficients. *)
Theorem provided_explicit_schemes_converge :
  forall (I : Type) (A : nat -> nat -> R) (s p : nat) (F P : vec I -> vec I) (y : R -> vec I) (t0 T L : R) (U : vec I -> Prop),
  In (p, A, s) explicit_schemes -> finite_index I -> regular p (total F P) y t0 T L U -> solution_of (total F P) y t0 T ->
  exists C h0 e1, 0 <= C /\ 0 < h0 /\ 0 < e1 /\
  forall h hm n (x : nat -> vec I) e0,
  step_sizes h hm n t0 T -> hm <= h0 -> (forall k, (k < n)%nat -> explicit_cycle A s F P (h k) (x k) (x (S k))) ->
  0 <= e0 <= e1 -> sup_le (x 0%nat -v y t0) e0 -> sup_le (x n -v y (t0 + rsum n h)) (C * (e0 + hm ^ p)).
Proof.
  intros I A s p F P y t0 T L U Hin fin reg sol. destruct explicit_schemes_have_advertised_order as (O1 & O2 & O3 & O4 & O5 & O6 & O7).
  assert (Q : (0 < s)%nat /\ erk_order p A s /\ exists B, bounded_table A B).
  { cbn [explicit_schemes In] in Hin. repeat (destruct Hin as [E|Hin]; [injection E as <- <- <-; split; [lia|]; split; [assumption|apply table_bounded]|]). destruct Hin. }
  destruct Q as (Hs & Ho & B & HB). apply (explicit_runge_kutta_converges I A B s p F P y t0 T L U); assumption.
Qed.
Print Assumptions provided_explicit_schemes_converge.

(** C138.  The five-stage SSPRK3 and SSPRK4, whose coefficients are rounded to 14 digits: order three (four) up to a floor set by the rounding.  (Right-hand side Lipschitz everywhere, as the floor need not be small against the neighbourhood.) *)
Theorem five_stage_schemes_converge_to_rounding :
  forall (I : Type) (A : nat -> nat -> R) (p : nat) (F P : vec I -> vec I) (y : R -> vec I) (t0 T L : R),
  (p = 3 /\ A = tab_SSPRK3_5 \/ p = 4 /\ A = tab_SSPRK4_5)%nat -> finite_index I -> regular p (total F P) y t0 T L everywhere -> solution_of (total F P) y t0 T ->
  exists C h0, 0 <= C /\ 0 < h0 /\
  forall h hm n (x : nat -> vec I) e0,
  step_sizes h hm n t0 T -> hm <= h0 -> (forall k, (k < n)%nat -> explicit_cycle A 5 F P (h k) (x k) (x (S k))) ->
  0 <= e0 -> sup_le (x 0%nat -v y t0) e0 -> sup_le (x n -v y (t0 + rsum n h)) (C * (e0 + hm ^ p + 1 / 10 ^ 9)).
Proof.
  intros I A p F P y t0 T L HA fin (Lp & nb & sm) sol. assert (p4 : (1 <= p <= 4)%nat) by lia.
  destruct five_stage_schemes_order_to_rounding as [O3 O4].
  assert (Ho : near_erk p (1 / 10 ^ 9) A 5).
  { destruct HA as [[-> ->]|[-> ->]].
    - destruct O3 as (Q1 & Q2 & Q3 & Q4). split; [exact Q1|]. split; [intros; exact Q2|]. split; [intros; split; assumption|lia].
    - destruct O4 as ((Q1 & Q2 & Q3 & Q4) & Q5 & Q6 & Q7 & Q8). split; [exact Q1|]. split; [intros; exact Q2|]. split; [intros; split; assumption|]. intros _. split; [exact Q5|]. split; [exact Q6|]. split; assumption. }
  assert (HB : exists B, bounded_table A B) by (destruct HA as [[_ ->]|[_ ->]]; apply table_bounded). destruct HB as (B & HB).
  destruct (additive_runge_kutta_converges I p 1 5 (fun _ => total F P) y t0 T B L everywhere fin p4 (proj1 HB) (proj1 Lp) ltac:(intros; split; assumption) nb (solution_solves _ _ _ _ sol)) as (C & h0 & HC & H0 & H).
  exists C, h0. split; [exact HC|]. split; [exact H0|]. intros h hm n x e0 Hh Hm Hst He Hx.
  apply (H (e_a A) (e_b A 5) (1 / 10 ^ 9) h hm n x e0); try assumption; [apply e_bounded; exact HB|lra|apply near_erk_ark; exact Ho|]. intros k Hk. apply explicit_cycle_ark; [lia|]. apply Hst. exact Hk.
Qed.
Print Assumptions five_stage_schemes_converge_to_rounding.

(** C138.  Whole calls of apply with a fixed number N of subcycles: the subcycle length is h, one call advances by N h. *)
Theorem subcycled_explicit_schemes_converge :
  forall (I : Type) (A : nat -> nat -> R) (s p : nat) (F P : vec I -> vec I) (y : R -> vec I) (t0 T L : R) (U : vec I -> Prop),
  In (p, A, s) explicit_schemes -> finite_index I -> regular p (total F P) y t0 T L U -> solution_of (total F P) y t0 T ->
  exists C h0 e1, 0 <= C /\ 0 < h0 /\ 0 < e1 /\
  forall h N n (x : nat -> vec I) e0, 0 < h <= h0 -> t0 + INR n * (INR N * h) <= T ->
  (forall k, (k < n)%nat -> exists store, x (S k) = apply_increment A s no_limiter h F P N store (x k) \/ x (S k) = apply_predictor A s no_limiter h F P N store (x k)) ->
  0 <= e0 <= e1 -> sup_le (x 0%nat -v y t0) e0 -> sup_le (x n -v y (t0 + INR n * (INR N * h))) (C * (e0 + h ^ p)).
Proof.
  intros I A s p F P y t0 T L U Hin fin reg sol.
  destruct (provided_explicit_schemes_converge I A s p F P y t0 T L U Hin fin reg sol) as (C & h0 & e1 & HC & H0 & E1 & H).
  exists C, h0, e1. split; [exact HC|]. split; [exact H0|]. split; [exact E1|]. intros h N n x e0 Hh HT Hst He Hx.
  assert (Hs : (0 < s)%nat) by (cbn [explicit_schemes In] in Hin; repeat (destruct Hin as [E|Hin]; [injection E as <- <- <-; lia|]); destruct Hin).
  set (z := fun k => niter k (erk_result A s (total F P) h) (x 0%nat)).
  assert (XZ : forall k, (k <= n)%nat -> x k = z (k * N)%nat).
  { induction k as [|k IH]; intros Hk; [reflexivity|]. specialize (IH ltac:(lia)). destruct (Hst k ltac:(lia)) as (st & Hx').
    assert (Q : x (S k) = niter N (erk_result A s (total F P) h) (x k)) by (apply erk_steps_iff; destruct Hx' as [->| ->]; apply (subcycled_runge_kutta I A s F P h N st (x k) Hs)).
    rewrite Q, IH. unfold z. rewrite <- niter_add. f_equal. lia. }
  assert (SUM : forall k, rsum k (fun _ => h) = INR k * h) by (induction k as [|k IH]; cbn [rsum]; [cbn; ring|]; rewrite IH, S_INR; ring).
  assert (EN : INR n * (INR N * h) = rsum (n * N) (fun _ => h)) by (rewrite SUM, mult_INR; ring). rewrite EN in *. rewrite (XZ n (Nat.le_refl n)).
  apply (H (fun _ => h) h (n * N)%nat z e0); try lra; [split; [lra|]; split; [intros; lra|lra]| |exact Hx].
  intros k Hk. exists (fun _ => vzero). left. symmetry. apply increment_is_textbook; [exact Hs|]. apply erk_step_iff. unfold z. apply niter_S_out.
Qed.
Print Assumptions subcycled_explicit_schemes_converge.

(** ** A nonlinear example: y' = y^2 from 1, solution 1/(1 - t) up to t = 1/2; the right-hand side is not Lipschitz everywhere *)
Definition square (v : vec unit) : vec unit := fun i => v i * v i.
Definition hyperbola (t : R) : vec unit := fun _ => 1 / (1 - t).
Lemma square_regular : regular 4 (total square (fun _ => vzero)) hyperbola 0 (1/2) 8 (fun v => sup_le v 4) /\ solution_of (total square (fun _ => vzero)) hyperbola 0 (1/2).
Proof.
  assert (Y2 : forall t, 0 <= t <= 1/2 -> 0 <= 1 / (1 - t) <= 2).
  { intros t Ht. split; [left; apply Rdiv_lt_0_compat; lra|]. apply (Rmult_le_reg_r (1 - t)); [lra|]. field_simplify; lra. }
  split; [split; [|split]|].
  - split; [lra|]. intros x z rho Hx Hz Hd i. specialize (Hx i). specialize (Hz i). specialize (Hd i). unfold total, square. vunfold. cbn beta in *.
    replace (x i * x i + 0 - (z i * z i + 0)) with ((x i + z i) * (x i - z i)) by ring. rewrite Rabs_mult. apply Rmult_le_compat; try apply Rabs_pos; [|exact Hd]. eapply Rle_trans; [apply Rabs_triang|]. lra.
  - exists 1. split; [lra|]. intros t v Ht Hv i. specialize (Hv i). specialize (Y2 t Ht). vunfold. unfold hyperbola. eapply Rle_trans; [apply Rabs_triang|]. rewrite (Rabs_pos_eq (1 / (1 - t))) by lra. lra.
  - exists (fun x v i => 2 * x i * v i), (fun x v w i => 2 * (v i * w i)), (fun x u v w i => 0), 4, 1. split; [lra|]. split; [lra|]. intros x (t & Ht & ->). pose proof (Y2 t Ht) as Y. unfold hyperbola.
    split; [|split; [|split; [|split]]].
    + intros i. unfold total, square. vunfold. rewrite Rabs_pos_eq; [|nra]. nra.
    + split; [split; intros; apply functional_extensionality; intros i; vunfold; ring|]. intros v r Hv i. specialize (Hv i). rewrite Rabs_mult. apply Rmult_le_compat; try apply Rabs_pos; [|exact Hv]. rewrite Rabs_pos_eq; lra.
    + split; [intros w; split; intros; apply functional_extensionality; intros i; vunfold; ring|]. split; [intros w; split; intros; apply functional_extensionality; intros i; vunfold; ring|].
      intros v w r s Hv Hw i. specialize (Hv i). specialize (Hw i). rewrite !Rabs_mult. pose proof (Rabs_pos (v i)). pose proof (Rabs_pos (w i)). rewrite (Rabs_pos_eq 2) by lra. apply Rmult_le_compat; [lra|apply Rmult_le_pos; lra|lra|]. apply Rmult_le_compat; lra.
    + split; [intros v w; split; intros; apply functional_extensionality; intros i; vunfold; ring|]. split; [intros v w; split; intros; apply functional_extensionality; intros i; vunfold; ring|].
      split; [intros v w; split; intros; apply functional_extensionality; intros i; vunfold; ring|]. intros u v w r s t' Hu Hv Hw i. specialize (Hu i). specialize (Hv i). specialize (Hw i). pose proof (Rabs_pos (u i)). pose proof (Rabs_pos (v i)). pose proof (Rabs_pos (w i)).
      rewrite Rabs_R0. repeat apply Rmult_le_pos; lra.
    + intros v rho Hv Hr i. pose proof (Hv i) as Hvi. pose proof (Rabs_pos (v i)). unfold total, taylor, square. cbn [Nat.leb]. vunfold.
      match goal with |- Rabs ?e <= _ => replace e with 0 by (field; lra) end. rewrite Rabs_R0. apply Rmult_le_pos; [lra|]. apply pow_le. lra.
  - intros t i Ht. unfold total, square, hyperbola. vunfold. replace (1 / (1 - t) * (1 / (1 - t)) + 0) with ((0 * (1 - t) - (0 - 1) * 1) / Rsqr (1 - t)) by (unfold Rsqr; field; lra).
    apply (derivable_pt_lim_div (fct_cte 1) (fun u => 1 - u)); [apply derivable_pt_lim_const| |lra]. apply (derivable_pt_lim_minus (fct_cte 1) id); [apply derivable_pt_lim_const|apply derivable_pt_lim_id].
Qed.
(** RK4 applied to it: fourth order on [0, 1/2] *)
Example rk4_on_a_nonlinear_problem : exists C h0, 0 <= C /\ 0 < h0 /\ forall h n (x : nat -> vec unit), 0 < h <= h0 -> INR n * h <= 1/2 ->
  (forall k, (k < n)%nat -> explicit_cycle tab_RK4 4 square (fun _ => vzero) h (x k) (x (S k))) -> x 0%nat tt = 1 -> Rabs (x n tt - 1 / (1 - INR n * h)) <= C * h ^ 4.
Proof.
  destruct square_regular as [R1 R2].
  destruct (provided_explicit_schemes_converge unit tab_RK4 4 4 square (fun _ => vzero) hyperbola 0 (1/2) 8 (fun v => sup_le v 4)) as (C & h0 & e1 & HC & H0 & E1 & H);
    [cbn; tauto|exists [tt]; intros []; left; reflexivity|exact R1|exact R2|].
  exists C, h0. split; [exact HC|]. split; [exact H0|]. intros h n x Hh HT Hst Hx.
  assert (SUM : forall k, rsum k (fun _ => h) = INR k * h) by (induction k as [|k IH]; cbn [rsum]; [cbn; ring|]; rewrite IH, S_INR; ring).
  specialize (H (fun _ => h) h n x 0). rewrite SUM in H. replace (C * (0 + h ^ 4)) with (C * h ^ 4) in H by ring.
  assert (Q : sup_le (x n -v hyperbola (0 + INR n * h)) (C * h ^ 4)).
  { apply H; try lra; [split; [lra|]; split; [intros; lra|rewrite SUM; lra]|exact Hst|]. intros []. vunfold. rewrite Hx. unfold hyperbola. replace (1 - 1 / (1 - 0)) with 0 by field. rewrite Rabs_R0. lra. }
  specialize (Q tt). unfold hyperbola in Q. vunfold. rewrite Rplus_0_l in Q. exact Q.
Qed.
