(** Elementary differentials: the sums over stages in a Runge-Kutta step and the coefficients of the exact solution, in the same basis. *)
From Verif Require Import Base Vec ConvergenceSpec ConvergenceFacts ConvergenceExact.
Open Scope R_scope.

Section Trees.
Context {I : Type}.
Variables (m : nat) (f : nat -> vec I) (d1 : nat -> vec I -> vec I) (d2 : nat -> vec I -> vec I -> vec I) (d3 : nat -> vec I -> vec I -> vec I -> vec I) (M : R).
Hypothesis M0 : 0 <= M.
Hypothesis Bf : forall q, (q < m)%nat -> sup_le (f q) M.
Hypothesis B1 : forall q, (q < m)%nat -> bounded1 M (d1 q).
Hypothesis B2 : forall q, (q < m)%nat -> bounded2 M (d2 q).
Hypothesis B3 : forall q, (q < m)%nat -> bounded3 M (d3 q).

Lemma swap_sums s n (w : nat -> R) (G : nat -> nat -> vec I) : vsum s (fun j => w j *v vsum n (fun t => G t j)) = vsum n (fun t => vsum s (fun j => w j *v G t j)).
Proof.
  induction s as [|s IH]; cbn [vsum].
  - symmetry. apply vsum_0. reflexivity.
  - rewrite IH, vsum_add. f_equal. symmetry. apply vsum_scal.
Qed.
Lemma collect s n (w : nat -> R) (c : nat -> nat -> R) (E : nat -> vec I) : vsum s (fun j => w j *v vsum n (fun t => c t j *v E t)) = vsum n (fun t => rsum s (fun j => w j * c t j) *v E t).
Proof. rewrite swap_sums. apply vsum_ext. intros t _. rewrite <- vsum_scal_const. apply vsum_ext. intros j _. vring. Qed.
Lemma collect2 s n n' (w : nat -> R) (c : nat -> nat -> nat -> R) (E : nat -> nat -> vec I) :
  vsum s (fun j => w j *v vsum n (fun t => vsum n' (fun u => c t u j *v E t u))) = vsum n (fun t => vsum n' (fun u => rsum s (fun j => w j * c t u j) *v E t u)).
Proof. rewrite (swap_sums s n w (fun t j => vsum n' (fun u => c t u j *v E t u))). apply vsum_ext. intros t _. apply collect. Qed.
Lemma collect3 s n n' n'' (w : nat -> R) (c : nat -> nat -> nat -> nat -> R) (E : nat -> nat -> nat -> vec I) :
  vsum s (fun j => w j *v vsum n (fun t => vsum n' (fun u => vsum n'' (fun v => c t u v j *v E t u v)))) = vsum n (fun t => vsum n' (fun u => vsum n'' (fun v => rsum s (fun j => w j * c t u v j) *v E t u v))).
Proof. rewrite (swap_sums s n w (fun t j => vsum n' (fun u => vsum n'' (fun v => c t u v j *v E t u v)))). apply vsum_ext. intros t _. apply collect2. Qed.

Lemma lin_sum (L : vec I -> vec I) n (c : nat -> R) (E : nat -> vec I) : linear_op L -> L (vsum n (fun t => c t *v E t)) = vsum n (fun t => c t *v L (E t)).
Proof. intros H. rewrite (linear_op_sum L n _ H). apply vsum_ext. intros t _. apply (proj2 H). Qed.
Lemma lin_sum2 (L : vec I -> vec I) n n' (c : nat -> nat -> R) (E : nat -> nat -> vec I) : linear_op L -> L (vsum n (fun t => vsum n' (fun u => c t u *v E t u))) = vsum n (fun t => vsum n' (fun u => c t u *v L (E t u))).
Proof. intros H. rewrite (linear_op_sum L n _ H). apply vsum_ext. intros t _. apply lin_sum. exact H. Qed.
Lemma lin_sum3 (L : vec I -> vec I) n n' n'' (c : nat -> nat -> nat -> R) (E : nat -> nat -> nat -> vec I) : linear_op L ->
  L (vsum n (fun t => vsum n' (fun u => vsum n'' (fun v => c t u v *v E t u v)))) = vsum n (fun t => vsum n' (fun u => vsum n'' (fun v => c t u v *v L (E t u v)))).
Proof. intros H. rewrite (linear_op_sum L n _ H). apply vsum_ext. intros t _. apply lin_sum2. exact H. Qed.

(** ** Combinations of elementary differentials of order 1 to 4 *)
(** Auxiliary, nothing in the code by itself. *)
Definition N1 (c : nat -> R) : vec I := vsum m (fun r => c r *v f r).
(** Auxiliary, nothing in the code by itself. *)
Definition N2 (c : nat -> nat -> R) : vec I := vsum m (fun r => vsum m (fun t => c r t *v d1 r (f t))).
(** Auxiliary, nothing in the code by itself. *)
Definition N3 (g g' : nat -> nat -> nat -> R) : vec I :=
  vsum m (fun r => vsum m (fun t => vsum m (fun u => g r t u *v d1 r (d1 t (f u))))) +v (1/2) *v vsum m (fun r => vsum m (fun t => vsum m (fun u => g' r t u *v d2 r (f t) (f u)))).
(** Auxiliary, nothing in the code by itself. *)
Definition N4 (w1 w2 w3 w4 : nat -> nat -> nat -> nat -> R) : vec I :=
  vsum m (fun q => vsum m (fun r => vsum m (fun t => vsum m (fun u => w1 q r t u *v d1 q (d1 r (d1 t (f u)))))))
  +v (1/2) *v vsum m (fun q => vsum m (fun r => vsum m (fun t => vsum m (fun u => w2 q r t u *v d1 q (d2 r (f t) (f u))))))
  +v (1/2) *v vsum m (fun q => vsum m (fun r => vsum m (fun t => vsum m (fun u => w3 q r t u *v (d2 q (f r) (d1 t (f u)) +v d2 q (d1 t (f u)) (f r))))))
  +v (1/6) *v vsum m (fun q => vsum m (fun r => vsum m (fun t => vsum m (fun u => w4 q r t u *v d3 q (f r) (f t) (f u))))).
(** Auxiliary, nothing in the code by itself. *)
Definition K2 q s0 s1 : vec I := d1 q s1 +v (1/2) *v d2 q s0 s0.
(** Auxiliary, nothing in the code by itself. *)
Definition K3 q s0 s1 s2 : vec I := d1 q s2 +v (1/2) *v (d2 q s0 s1 +v d2 q s1 s0) +v (1/6) *v d3 q s0 s0 s0.

Section Sums.
Variables (s : nat) (b : nat -> nat -> R).
Lemma L1 : vsum m (fun q => vsum s (fun i => b q i *v f q)) = N1 (fun q => rsum s (fun i => b q i)).
Proof. apply vsum_ext. intros q _. apply vsum_scal_const. Qed.
Lemma L2 (c : nat -> nat -> R) : vsum m (fun q => vsum s (fun i => b q i *v d1 q (N1 (fun r => c r i)))) = N2 (fun q r => rsum s (fun i => b q i * c r i)).
Proof.
  apply vsum_ext. intros q Hq. destruct (B1 q Hq) as [Lq _]. rewrite <- collect. apply vsum_ext. intros i _. unfold N1. rewrite lin_sum by exact Lq. reflexivity.
Qed.
Lemma d2_00 q (c : nat -> R) : (q < m)%nat -> d2 q (N1 c) (N1 c) = vsum m (fun r => vsum m (fun t => (c r * c t) *v d2 q (f r) (f t))).
Proof.
  intros Hq. destruct (B2 q Hq) as (LR & LL & _). unfold N1 at 1. rewrite (lin_sum (fun v => d2 q v (N1 c))) by apply LL. apply vsum_ext. intros r _. unfold N1. rewrite (lin_sum (d2 q (f r))) by apply LR.
  rewrite <- vsum_scal. apply vsum_ext. intros t _. vring.
Qed.
Lemma L3 (c : nat -> nat -> R) (d : nat -> nat -> nat -> R) : vsum m (fun q => vsum s (fun i => b q i *v K2 q (N1 (fun r => c r i)) (N2 (fun r t => d r t i)))) =
  N3 (fun q r t => rsum s (fun i => b q i * d r t i)) (fun q r t => rsum s (fun i => b q i * (c r i * c t i))).
Proof.
  unfold N3. rewrite <- vsum_scal, <- vsum_add. apply vsum_ext. intros q Hq. destruct (B1 q Hq) as [Lq _].
  rewrite <- collect2, <- collect2, <- vsum_scal, <- vsum_add. apply vsum_ext. intros i _. unfold K2. rewrite d2_00 by exact Hq. unfold N2. rewrite lin_sum2 by exact Lq. vring.
Qed.
Lemma d2_01 q (c : nat -> R) (d : nat -> nat -> R) : (q < m)%nat -> d2 q (N1 c) (N2 d) +v d2 q (N2 d) (N1 c) =
  vsum m (fun r => vsum m (fun t => vsum m (fun u => (c r * d t u) *v (d2 q (f r) (d1 t (f u)) +v d2 q (d1 t (f u)) (f r))))).
Proof.
  intros Hq. destruct (B2 q Hq) as (LR & LL & _). unfold N1. rewrite (lin_sum (fun v => d2 q v (N2 d))) by apply LL. rewrite (lin_sum (d2 q (N2 d))) by apply LR. rewrite <- vsum_add. apply vsum_ext. intros r _.
  unfold N2. rewrite (lin_sum2 (d2 q (f r))) by apply LR. rewrite (lin_sum2 (fun v => d2 q v (f r))) by apply LL.
  rewrite <- !vsum_scal, <- vsum_add. apply vsum_ext. intros t _. rewrite <- !vsum_scal, <- vsum_add. apply vsum_ext. intros u _. vring.
Qed.
Lemma d3_000 q (c : nat -> R) : (q < m)%nat -> d3 q (N1 c) (N1 c) (N1 c) = vsum m (fun r => vsum m (fun t => vsum m (fun u => (c r * (c t * c u)) *v d3 q (f r) (f t) (f u)))).
Proof.
  intros Hq. destruct (B3 q Hq) as (La & Lb & Lc & _). unfold N1 at 1. rewrite (lin_sum (fun v => d3 q v (N1 c) (N1 c))) by apply Lc. apply vsum_ext. intros r _.
  unfold N1 at 1. rewrite (lin_sum (fun v => d3 q (f r) v (N1 c))) by apply Lb. rewrite <- vsum_scal. apply vsum_ext. intros t _. unfold N1. rewrite (lin_sum (d3 q (f r) (f t))) by apply La.
  rewrite <- !vsum_scal. apply vsum_ext. intros u _. vring.
Qed.
Lemma L4 (c : nat -> nat -> R) (d : nat -> nat -> nat -> R) (g g' : nat -> nat -> nat -> nat -> R) :
  vsum m (fun q => vsum s (fun i => b q i *v K3 q (N1 (fun r => c r i)) (N2 (fun r t => d r t i)) (N3 (fun r t u => g r t u i) (fun r t u => g' r t u i)))) =
  N4 (fun q r t u => rsum s (fun i => b q i * g r t u i)) (fun q r t u => rsum s (fun i => b q i * g' r t u i))
     (fun q r t u => rsum s (fun i => b q i * (c r i * d t u i))) (fun q r t u => rsum s (fun i => b q i * (c r i * (c t i * c u i)))).
Proof.
  unfold N4. rewrite <- !vsum_scal, <- !vsum_add. apply vsum_ext. intros q Hq. destruct (B1 q Hq) as [Lq _].
  rewrite <- !collect3, <- !vsum_scal, <- !vsum_add. apply vsum_ext. intros i _. unfold K3. rewrite d2_01, d3_000 by exact Hq.
  unfold N3. rewrite (proj1 Lq), (proj2 Lq), !lin_sum3 by exact Lq. vring.
Qed.
End Sums.

(** ** Bounds *)
Lemma sup_le_scal c (E : vec I) C e : Rabs c <= e -> 0 <= C -> sup_le E C -> sup_le (c *v E) (e * C).
Proof. intros Hc HC HE. eapply sup_mono; [apply sup_scal; exact HE|]. apply Rmult_le_compat_r; assumption. Qed.
(** Auxiliary, nothing in the code by itself. *)
Definition mm : R := INR m.
Lemma mm0 : 0 <= mm. Proof. apply pos_INR. Qed.
(** Auxiliary, nothing in the code by itself. *)
Definition close (e : R) (x x' : R) : Prop := Rabs (x - x') <= e.
Lemma N1_close e c c' : 0 <= e -> (forall q, (q < m)%nat -> close e (c q) (c' q)) -> sup_le (N1 c -v N1 c') (mm * (e * M)).
Proof.
  intros He H. unfold N1. rewrite <- vsum_sub. apply sup_vsum. intros q Hq. apply (sup_ext ((c q - c' q) *v f q)); [intros i; vunfold; ring|]. apply sup_le_scal; [apply H; exact Hq|exact M0|apply Bf; exact Hq].
Qed.
Lemma E2_b r t : (r < m)%nat -> (t < m)%nat -> sup_le (d1 r (f t)) (M * M).
Proof. intros Hr Ht. apply (B1 r Hr). apply Bf. exact Ht. Qed.
Lemma N2_close e c c' : 0 <= e -> (forall q r, (q < m)%nat -> (r < m)%nat -> close e (c q r) (c' q r)) -> sup_le (N2 c -v N2 c') (mm * (mm * (e * (M * M)))).
Proof.
  intros He H. unfold N2. rewrite <- vsum_sub. apply sup_vsum. intros q Hq. rewrite <- vsum_sub. apply sup_vsum. intros r Hr.
  apply (sup_ext ((c q r - c' q r) *v d1 q (f r))); [intros i; vunfold; ring|]. apply sup_le_scal; [apply H; assumption|apply Rmult_le_pos; exact M0|apply E2_b; assumption].
Qed.
Lemma sup3 e (c c' : nat -> nat -> nat -> R) (E : nat -> nat -> nat -> vec I) C : 0 <= C -> (forall r t u, (r < m)%nat -> (t < m)%nat -> (u < m)%nat -> close e (c r t u) (c' r t u) /\ sup_le (E r t u) C) ->
  sup_le (vsum m (fun r => vsum m (fun t => vsum m (fun u => c r t u *v E r t u))) -v vsum m (fun r => vsum m (fun t => vsum m (fun u => c' r t u *v E r t u)))) (mm * (mm * (mm * (e * C)))).
Proof.
  intros HC H. rewrite <- vsum_sub. apply sup_vsum. intros r Hr. rewrite <- vsum_sub. apply sup_vsum. intros t Ht. rewrite <- vsum_sub. apply sup_vsum. intros u Hu.
  destruct (H r t u Hr Ht Hu) as [A B]. apply (sup_ext ((c r t u - c' r t u) *v E r t u)); [intros i; vunfold; ring|]. apply sup_le_scal; assumption.
Qed.
Lemma sup4 e (c c' : nat -> nat -> nat -> nat -> R) (E : nat -> nat -> nat -> nat -> vec I) C : 0 <= C -> (forall q r t u, (q < m)%nat -> (r < m)%nat -> (t < m)%nat -> (u < m)%nat -> close e (c q r t u) (c' q r t u) /\ sup_le (E q r t u) C) ->
  sup_le (vsum m (fun q => vsum m (fun r => vsum m (fun t => vsum m (fun u => c q r t u *v E q r t u)))) -v vsum m (fun q => vsum m (fun r => vsum m (fun t => vsum m (fun u => c' q r t u *v E q r t u))))) (mm * (mm * (mm * (mm * (e * C))))).
Proof. intros HC H. rewrite <- vsum_sub. apply sup_vsum. intros q Hq. apply (sup3 e (c q) (c' q) (E q) C HC). intros r t u Hr Ht Hu. apply H; assumption. Qed.
(** Auxiliary, nothing in the code by itself. *)
Definition M2 := M * M. Definition M3 := M * (M * M). Definition M3' := M * (M * M).
Lemma N3_close e g h g' h' : 0 <= e -> (forall q r t, (q < m)%nat -> (r < m)%nat -> (t < m)%nat -> close e (g q r t) (g' q r t) /\ close e (h q r t) (h' q r t)) ->
  sup_le (N3 g h -v N3 g' h') (2 * (mm * (mm * (mm * (e * M3))))).
Proof.
  intros He H. assert (P3 : 0 <= M3) by (unfold M3; repeat apply Rmult_le_pos; exact M0).
  unfold N3. set (x1 := vsum m _). set (x2 := vsum m _). set (x3 := vsum m _). set (x4 := vsum m _).
  assert (A1 : sup_le (x1 -v x3) (mm * (mm * (mm * (e * M3))))).
  { apply sup3; [exact P3|]. intros r t u Hr Ht Hu. split; [apply H; assumption|]. apply (B1 r Hr). apply E2_b; assumption. }
  assert (A2 : sup_le (x2 -v x4) (mm * (mm * (mm * (e * M3))))).
  { apply sup3; [exact P3|]. intros r t u Hr Ht Hu. split; [apply H; assumption|]. apply (B2 r Hr); apply Bf; assumption. }
  assert (Q : 0 <= mm * (mm * (mm * (e * M3)))) by (pose proof mm0; repeat apply Rmult_le_pos; assumption).
  clearbody x1 x2 x3 x4. apply (sup_ext ((x1 -v x3) +v (1/2) *v (x2 -v x4))); [intros i; vunfold; ring|]. eapply sup_mono; [apply sup_add; [exact A1|apply sup_scal; exact A2]|]. rewrite Rabs_pos_eq; lra.
Qed.
(** Auxiliary, nothing in the code by itself. *)
Definition M4 := M * (M * (M * M)).
Lemma N4_close e w1 w2 w3 w4 w1' w2' w3' w4' : 0 <= e -> (forall q r t u, (q < m)%nat -> (r < m)%nat -> (t < m)%nat -> (u < m)%nat ->
  close e (w1 q r t u) (w1' q r t u) /\ close e (w2 q r t u) (w2' q r t u) /\ close e (w3 q r t u) (w3' q r t u) /\ close e (w4 q r t u) (w4' q r t u)) ->
  sup_le (N4 w1 w2 w3 w4 -v N4 w1' w2' w3' w4') (4 * (mm * (mm * (mm * (mm * (e * M4)))))).
Proof.
  intros He H. assert (P4 : 0 <= M4) by (unfold M4; repeat apply Rmult_le_pos; exact M0).
  set (B := mm * (mm * (mm * (mm * (e * M4))))). assert (Q : 0 <= B) by (pose proof mm0; unfold B; repeat apply Rmult_le_pos; assumption).
  unfold N4. set (x1 := vsum m _). set (x2 := vsum m _). set (x3 := vsum m _). set (x4 := vsum m _). set (z1 := vsum m _). set (z2 := vsum m _). set (z3 := vsum m _). set (z4 := vsum m _).
  assert (A1 : sup_le (x1 -v z1) B).
  { apply sup4; [exact P4|]. intros q r t u Hq Hr Ht Hu. split; [apply H; assumption|]. apply (B1 q Hq). apply (B1 r Hr). apply E2_b; assumption. }
  assert (A2 : sup_le (x2 -v z2) B).
  { apply sup4; [exact P4|]. intros q r t u Hq Hr Ht Hu. split; [apply H; assumption|]. apply (B1 q Hq). apply (B2 r Hr); apply Bf; assumption. }
  assert (A3 : sup_le (x3 -v z3) (2 * B)).
  { replace (2 * B) with (mm * (mm * (mm * (mm * (e * (2 * M4)))))) by (unfold B; ring). apply sup4; [lra|]. intros q r t u Hq Hr Ht Hu. split; [apply H; assumption|]. replace (2 * M4) with (M4 + M4) by ring. destruct (B2 q Hq) as (_ & _ & BB). apply sup_add.
    - apply BB; [apply Bf; assumption|apply E2_b; assumption].
    - unfold M4. replace (M * (M * M)) with ((M * M) * M) by ring. apply BB; [apply E2_b; assumption|apply Bf; assumption]. }
  assert (A4 : sup_le (x4 -v z4) B).
  { apply sup4; [exact P4|]. intros q r t u Hq Hr Ht Hu. split; [apply H; assumption|]. apply (B3 q Hq); apply Bf; assumption. }
  clearbody x1 x2 x3 x4 z1 z2 z3 z4. apply (sup_ext (((x1 -v z1) +v (1/2) *v (x2 -v z2)) +v ((1/2) *v (x3 -v z3) +v (1/6) *v (x4 -v z4)))); [intros i; vunfold; ring|].
  eapply sup_mono; [apply sup_add; apply sup_add; [exact A1|apply sup_scal; exact A2|apply sup_scal; exact A3|apply sup_scal; exact A4]|]. rewrite !Rabs_pos_eq; lra.
Qed.
End Trees.
