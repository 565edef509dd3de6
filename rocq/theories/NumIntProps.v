(** C114: the tabulated integral approximates the integral. *)
From Coq Require Import List Reals Arith Lra Lia Psatz.
Import ListNotations.
From Verif Require Import Base NumInt.
Open Scope R_scope.

(** ** Specification *)
(** Phi is an antiderivative of f on [lo, hi]; the integral from a to b is Phi b - Phi a *)
Definition antiderivative_on (lo hi : R) (f Phi : R -> R) : Prop := forall c, lo <= c <= hi -> derivable_pt_lim Phi c (f c).
Definition lipschitz_on (lo hi K : R) (f : R -> R) : Prop := forall a b, lo <= a <= hi -> lo <= b <= hi -> Rabs (f a - f b) <= K * Rabs (a - b).
(** what the user sees: the values at p of the integral of f tabulated at n points between lo and hi *)
Definition evaluates (lo hi : R) (n : nat) (f : R -> R) (p v : R) : Prop :=
  exists I, new_integral lo hi n = Ok I /\ evaluate_at (tabulate I f) p = Ok v.
(** the distance of the points *)
Definition spacing (lo hi : R) (n : nat) : R := (hi - lo) / INR (n - 1).

(** ** Proofs *)
Lemma every_other_even {A} (g : nat -> A) m : forall s, every_other (map g (seq s (2 * m))) = map (fun i => g (s + 2 * i)%nat) (seq 0 m).
Proof.
  induction m as [|m IH]; intros s; [reflexivity|]. replace (2 * S m)%nat with (S (S (2 * m))) by lia. cbn [seq map every_other]. rewrite IH, Nat.add_0_r. f_equal.
  rewrite <- seq_shift, map_map. apply map_ext. intros i. f_equal. lia.
Qed.
Lemma every_other_odd {A} (g : nat -> A) m : forall s, every_other (map g (seq s (2 * m + 1))) = map (fun i => g (s + 2 * i)%nat) (seq 0 (S m)).
Proof.
  induction m as [|m IH]; intros s; [cbn; rewrite Nat.add_0_r; reflexivity|]. replace (2 * S m + 1)%nat with (S (S (2 * m + 1))) by lia. cbn [seq map every_other]. rewrite IH, Nat.add_0_r. f_equal.
  cbn [seq map]. f_equal; [f_equal; lia|]. rewrite <- (seq_shift m 1), map_map. apply map_ext. intros i. f_equal. lia.
Qed.
Lemma removelast_map_seq {A} (g : nat -> A) n s : removelast (map g (seq s (S n))) = map g (seq s n).
Proof. rewrite seq_S, map_app. cbn [map]. rewrite removelast_app by discriminate. cbn. apply app_nil_r. Qed.
Lemma skipn_map_seq {A} (g : nat -> A) k n s : skipn k (map g (seq s (k + n))) = map g (seq (s + k) n).
Proof. revert s. induction k as [|k IH]; intros s; [cbn; rewrite Nat.add_0_r; reflexivity|]. cbn. rewrite IH. f_equal. f_equal. lia. Qed.
Lemma zip_map {A} h (f g : A -> R) l : zipR h (map f l) (map g l) = map (fun a => h (f a) (g a)) l.
Proof. induction l as [|a l IH]; [reflexivity|]. cbn. rewrite IH. reflexivity. Qed.
Section Fixed.
Variables (lo hi : R) (m : nat).    (* m + 1 points *)
Hypothesis Hm : (1 <= m)%nat.
Let h := (hi - lo) / INR m.
Let x (i : nat) := lo + INR i * h.
Definition mean (f : R -> R) (i : nat) := (f (x (S i)) + 4 * f (x i + h / 2) + f (x i)) / 6.
Fixpoint cum (f : R -> R) (k : nat) : R := match k with O => 0 | S k => cum f k + h * mean f k end.
Lemma INRm : 0 < INR m. Proof. apply lt_0_INR. lia. Qed.
Lemma points : linspace lo hi (S m) = map x (seq 0 (S m)).
Proof. unfold linspace. replace (S m - 1)%nat with m by lia. reflexivity. Qed.
Lemma points2 : linspace lo hi (2 * S m - 1) = map (fun i => lo + INR i * (h / 2)) (seq 0 (2 * m + 1)).
Proof.
  unfold linspace. replace (2 * S m - 1)%nat with (2 * m + 1)%nat by lia. apply map_ext. intros i. unfold h. replace (2 * m + 1 - 1)%nat with (2 * m)%nat by lia.
  rewrite mult_INR. cbn [INR]. pose proof INRm. field. lra.
Qed.
Lemma areas f : interval_areas (linspace lo hi (S m)) (map f (linspace lo hi (2 * S m - 1))) = map (fun i => h * mean f i) (seq 0 m).
Proof.
  rewrite points, points2, map_map. unfold interval_areas.
  set (g := fun i : nat => f (lo + INR i * (h / 2))).
  rewrite removelast_map_seq. replace (S m) with (1 + m)%nat by lia. rewrite skipn_map_seq. cbn [plus].
  replace (2 * m + 1)%nat with (2 + (2 * (m - 1) + 1))%nat at 1 by lia. rewrite skipn_map_seq. cbn [plus]. rewrite every_other_odd. replace (S (m - 1)) with m by lia.
  replace (2 * m + 1)%nat with (1 + 2 * m)%nat by lia. rewrite skipn_map_seq. cbn [plus]. rewrite every_other_even.
  replace (1 + 2 * m)%nat with (S (2 * m)) by lia. cbn [plus]. rewrite removelast_map_seq, every_other_even.
  rewrite <- seq_shift, map_map, map_map, !zip_map, map_map, zip_map. apply map_ext. intros i.
  assert (E0 : lo + INR (0 + 2 * i) * (h / 2) = x i) by (unfold x; cbn [plus]; rewrite mult_INR; cbn [INR]; lra).
  assert (E1 : lo + INR (1 + 2 * i) * (h / 2) = x i + h / 2) by (unfold x; rewrite plus_INR, mult_INR; cbn [INR]; lra).
  assert (E2 : lo + INR (2 + 2 * i) * (h / 2) = x (S i)) by (unfold x; rewrite plus_INR, mult_INR, (S_INR i); cbn [INR]; field).
  unfold g, mean. change (S (S (2 * i))) with (2 + 2 * i)%nat. change (S (2 * i)) with (1 + 2 * i)%nat. rewrite E0, E1, E2. replace (x (S i) - x i) with h by (unfold x; rewrite S_INR; lra). field.
Qed.
Lemma cumulate_spec f : forall k s, cumulate (cum f s) (map (fun i => h * mean f i) (seq s k)) = map (cum f) (seq s (S k)).
Proof.
  induction k as [|k IH]; intros s; [reflexivity|]. cbn [seq map cumulate]. f_equal. change (cum f s + h * mean f s) with (cum f (S s)). rewrite IH. reflexivity.
Qed.
Lemma tabulated f : cumulate 0 (interval_areas (linspace lo hi (S m)) (map f (linspace lo hi (2 * S m - 1)))) = map (cum f) (seq 0 (S m)).
Proof. rewrite areas. apply (cumulate_spec f m 0). Qed.
Lemma evaluates_iff f p v : evaluates lo hi (S m) f p v <-> v = interp p (map x (seq 0 (S m))) (map (cum f) (seq 0 (S m))).
Proof.
  unfold evaluates, evaluate_at, tabulate, new_integral. split.
  - intros (I & E & H). injection E as <-. cbn [i_cumulative i_x i_x2] in H. rewrite tabulated, points in H. injection H as <-. reflexivity.
  - intros ->. eexists. split; [reflexivity|]. cbn [i_cumulative i_x i_x2]. rewrite tabulated, points. reflexivity.
Qed.
Lemma last_map {A} (g : nat -> A) d k : last (map g (seq 0 (S k))) d = g k.
Proof. rewrite seq_S, map_app. cbn [map]. apply last_last. Qed.
Lemma x_end : x m = hi. Proof. unfold x, h. pose proof INRm. field. lra. Qed.
Lemma x_0 : x 0 = lo. Proof. unfold x. cbn. lra. Qed.

Lemma hd_x : hd 0 (map x (seq 0 (S m))) = lo. Proof. apply x_0. Qed.
Section Increasing.
Hypothesis Hlt : lo < hi.
Lemma h_pos : 0 < h. Proof. unfold h. apply Rdiv_lt_0_compat; [lra|apply INRm]. Qed.
Lemma x_step i : x (S i) = x i + h. Proof. unfold x. rewrite S_INR. lra. Qed.
Lemma x_mono i j : (i <= j)%nat -> x i <= x j.
Proof. intros H. unfold x. apply le_INR in H. pose proof h_pos. nra. Qed.
Lemma bracket_in f p k : forall n s, (s <= k)%nat -> (k < s + n)%nat -> x k <= p -> p < x (S k) ->
  bracket p (map x (seq s (S n))) (map (cum f) (seq s (S n))) = cum f k + mean f k * (p - x k).
Proof.
  pose proof h_pos as Hp. induction n as [|n IH]; intros s Hs Hk H1 H2; [lia|].
  cbn [seq map bracket]. destruct (Rlt_dec p (x (S s))) as [Hl|Hl].
  - assert (k = s). { destruct (le_lt_eq_dec _ _ Hs) as [H|H]; [|congruence]. pose proof (x_mono (S s) k ltac:(lia)). lra. }
    subst k. cbn [cum]. rewrite x_step. field. lra.
  - assert (s <> k) by (intros ->; lra). specialize (IH (S s) ltac:(lia) ltac:(lia) H1 H2). cbn [seq map] in IH. exact IH.
Qed.
Lemma bracket_end f p : p = hi -> forall n s, (s + n = m)%nat -> bracket p (map x (seq s (S n))) (map (cum f) (seq s (S n))) = cum f m.
Proof.
  intros ->. induction n as [|n IH]; intros s Hs; [cbn; f_equal; lia|]. cbn [seq map bracket]. destruct (Rlt_dec hi (x (S s))) as [Hl|Hl].
  - pose proof (x_mono (S s) m ltac:(lia)). rewrite x_end in H. lra.
  - specialize (IH (S s) ltac:(lia)). cbn [seq map] in IH. exact IH.
Qed.
Lemma locate p : lo <= p <= hi -> exists k, (k < m)%nat /\ x k <= p <= x (S k).
Proof.
  intros [H1 H2]. assert (G : forall j, (j <= m)%nat -> p <= x j -> j = 0%nat \/ exists k, (k < j)%nat /\ x k <= p <= x (S k)).
  { induction j as [|j IH]; intros Hj Hp; [left; reflexivity|]. right. destruct (Rle_dec p (x j)) as [Hl|Hl].
    - destruct (IH ltac:(lia) Hl) as [-> |(k & Hk & HH)]; [|exists k; split; [lia|exact HH]]. exists 0%nat. rewrite x_0 in *. split; [lia|]. split; [exact H1|exact Hp].
    - exists j. split; [lia|]. split; lra. }
  destruct (G m (le_n m)) as [-> |H]; [rewrite x_end; exact H2|lia|exact H].
Qed.
Lemma interp_in f p k : (k < m)%nat -> x k <= p <= x (S k) -> interp p (map x (seq 0 (S m))) (map (cum f) (seq 0 (S m))) = cum f k + mean f k * (p - x k).
Proof.
  intros Hk [H1 H2]. unfold interp. rewrite !last_map, x_end, hd_x.
  assert (A1 : lo <= p) by (rewrite <- x_0; pose proof (x_mono 0 k ltac:(lia)); lra).
  assert (A2 : p <= hi) by (rewrite <- x_end; pose proof (x_mono (S k) m ltac:(lia)); lra).
  destruct (Rlt_dec hi p) as [?|_]; [lra|]. destruct (Rlt_dec p lo) as [?|_]; [lra|].
  destruct (Rlt_dec p (x (S k))) as [Hl|Hl]; [apply bracket_in; try lia; assumption|]. assert (E : p = x (S k)) by lra.
  assert (C : cum f k + mean f k * (p - x k) = cum f (S k)) by (rewrite E, x_step; cbn [cum]; ring). rewrite C.
  destruct (Nat.eq_dec (S k) m) as [Em|Em].
  - rewrite Em. apply bracket_end; [rewrite E, Em; apply x_end|lia].
  - rewrite (bracket_in f p (S k)); try lia; [rewrite E; ring|lra|]. pose proof h_pos. rewrite (x_step (S k)). lra.
Qed.
Lemma x_range k : (k <= m)%nat -> lo <= x k <= hi.
Proof. intros H. rewrite <- x_0 at 1. rewrite <- x_end. split; apply x_mono; lia. Qed.
Lemma mean_bounds f k a b : (k < m)%nat -> (forall c, x k <= c <= x (S k) -> a <= f c <= b) -> a <= mean f k <= b.
Proof.
  intros Hk H. pose proof h_pos as Hp. unfold mean. pose proof (H (x k) ltac:(rewrite x_step; lra)). pose proof (H (x (S k)) ltac:(rewrite x_step; lra)).
  pose proof (H (x k + h / 2) ltac:(rewrite x_step; lra)). split; lra.
Qed.
Lemma piece_error f Phi K k p : antiderivative_on lo hi f Phi -> lipschitz_on lo hi K f -> 0 <= K -> (k < m)%nat -> x k <= p <= x (S k) ->
  Rabs (mean f k * (p - x k) - (Phi p - Phi (x k))) <= K * h * (p - x k).
Proof.
  intros HA HL HK Hk [H1 H2]. pose proof h_pos as Hp. pose proof (x_range k ltac:(lia)) as R1. pose proof (x_range (S k) ltac:(lia)) as R2.
  destruct H1 as [H1|H1]; [|rewrite <- H1; replace (mean f k * (x k - x k) - (Phi (x k) - Phi (x k))) with 0 by ring; rewrite Rabs_R0; lra].
  destruct (MVT_cor2 Phi f (x k) p H1) as (c & Ec & Hc); [intros c Hc; apply HA; lra|]. rewrite Ec.
  replace (mean f k * (p - x k) - f c * (p - x k)) with ((mean f k - f c) * (p - x k)) by ring. rewrite Rabs_mult, (Rabs_right (p - x k)) by lra.
  apply Rmult_le_compat_r; [lra|].
  destruct (mean_bounds f k (f c - K * h) (f c + K * h) Hk) as [B1 B2].
  { intros d Hd. assert (Q : Rabs (f d - f c) <= K * h).
    { eapply Rle_trans; [apply HL; lra|]. apply Rmult_le_compat_l; [exact HK|]. rewrite x_step in *. unfold Rabs. destruct (Rcase_abs (d - c)); lra. }
    unfold Rabs in Q. destruct (Rcase_abs (f d - f c)); lra. }
  unfold Rabs. destruct (Rcase_abs (mean f k - f c)); lra.
Qed.
Lemma cum_error f Phi K : antiderivative_on lo hi f Phi -> lipschitz_on lo hi K f -> 0 <= K -> forall k, (k <= m)%nat -> Rabs (cum f k - (Phi (x k) - Phi lo)) <= K * h * (x k - lo).
Proof.
  intros HA HL HK. pose proof h_pos as Hp. induction k as [|k IH]; intros Hk.
  - cbn [cum]. rewrite x_0. replace (0 - (Phi lo - Phi lo)) with 0 by ring. rewrite Rabs_R0. lra.
  - specialize (IH ltac:(lia)). pose proof (piece_error f Phi K k (x (S k)) HA HL HK ltac:(lia) ltac:(rewrite x_step; lra)) as P.
    cbn [cum]. replace (cum f k + h * mean f k - (Phi (x (S k)) - Phi lo)) with ((cum f k - (Phi (x k) - Phi lo)) + (mean f k * (x (S k) - x k) - (Phi (x (S k)) - Phi (x k)))) by (rewrite x_step; ring).
    eapply Rle_trans; [apply Rabs_triang|]. replace (x (S k) - lo) with ((x k - lo) + (x (S k) - x k)) by ring. nra.
Qed.
Lemma error f Phi K p : antiderivative_on lo hi f Phi -> lipschitz_on lo hi K f -> 0 <= K -> lo <= p <= hi ->
  Rabs (interp p (map x (seq 0 (S m))) (map (cum f) (seq 0 (S m))) - (Phi p - Phi lo)) <= K * h * (p - lo).
Proof.
  intros HA HL HK Hp. destruct (locate p Hp) as (k & Hk & Hkp). rewrite (interp_in f p k Hk Hkp).
  pose proof (cum_error f Phi K HA HL HK k ltac:(lia)) as C. pose proof (piece_error f Phi K k p HA HL HK Hk Hkp) as P.
  replace (cum f k + mean f k * (p - x k) - (Phi p - Phi lo)) with ((cum f k - (Phi (x k) - Phi lo)) + (mean f k * (p - x k) - (Phi p - Phi (x k)))) by ring.
  eapply Rle_trans; [apply Rabs_triang|]. replace (p - lo) with ((x k - lo) + (p - x k)) by ring. nra.
Qed.
Lemma cum_cubic a b c d k : cum (fun t => a + b * t + c * t ^ 2 + d * t ^ 3) k =
  (a * x k + b * x k ^ 2 / 2 + c * x k ^ 3 / 3 + d * x k ^ 4 / 4) - (a * lo + b * lo ^ 2 / 2 + c * lo ^ 3 / 3 + d * lo ^ 4 / 4).
Proof. induction k as [|k IH]; [rewrite x_0; cbn [cum]; ring|]. cbn [cum]. rewrite IH. unfold mean. rewrite x_step. field. Qed.
Lemma cum_linear f g a b k : cum (fun t => a * f t + b * g t) k = a * cum f k + b * cum g k.
Proof. induction k as [|k IH]; cbn [cum]; [ring|]. rewrite IH. unfold mean. field. Qed.
Lemma mean_linear f g a b k : mean (fun t => a * f t + b * g t) k = a * mean f k + b * mean g k.
Proof. unfold mean. field. Qed.
Lemma interp_lo f p : p <= lo -> interp p (map x (seq 0 (S m))) (map (cum f) (seq 0 (S m))) = 0.
Proof.
  intros H. destruct (Req_dec p lo) as [-> |N].
  - rewrite (interp_in f lo 0); [rewrite x_0; cbn [cum]; ring|lia|]. rewrite x_step, x_0. pose proof h_pos. lra.
  - unfold interp. rewrite !last_map, x_end, hd_x. destruct (Rlt_dec hi p); [lra|]. destruct (Rlt_dec p lo); [reflexivity|lra].
Qed.
Lemma interp_hi f p : hi <= p -> interp p (map x (seq 0 (S m))) (map (cum f) (seq 0 (S m))) = cum f m.
Proof.
  intros H. unfold interp. rewrite !last_map, x_end. destruct (Rlt_dec hi p) as [|N]; [reflexivity|]. assert (p = hi) by lra. subst p. rewrite hd_x.
  destruct (Rlt_dec hi lo); [lra|]. apply (bracket_end f hi eq_refl m 0). lia.
Qed.
Lemma interp_mono_in f p q : (forall c, lo <= c <= hi -> 0 <= f c) -> lo <= p -> p <= q -> q <= hi ->
  interp p (map x (seq 0 (S m))) (map (cum f) (seq 0 (S m))) <= interp q (map x (seq 0 (S m))) (map (cum f) (seq 0 (S m))).
Proof.
  intros Hf H1 H2 H3. pose proof h_pos as Hp. destruct (locate p ltac:(lra)) as (k & Hk & Kp). destruct (locate q ltac:(lra)) as (l & Hl & Lq).
  assert (M : forall j, (j < m)%nat -> 0 <= mean f j).
  { intros j Hj. pose proof (x_range j ltac:(lia)). pose proof (x_range (S j) ltac:(lia)). unfold mean. pose proof (Hf (x j) ltac:(lra)). pose proof (Hf (x (S j)) ltac:(lra)).
    pose proof (Hf (x j + h / 2) ltac:(rewrite x_step in *; lra)). lra. }
  assert (C : forall i j, (i <= j)%nat -> (j <= m)%nat -> cum f i <= cum f j).
  { intros i j Hij. induction Hij as [|j Hij IH]; intros Hj; [lra|]. cbn [cum]. specialize (IH ltac:(lia)). pose proof (M j ltac:(lia)). nra. }
  destruct (Nat.lt_ge_cases k l) as [Hkl|Hkl].
  - rewrite (interp_in f p k Hk Kp), (interp_in f q l Hl Lq). pose proof (C (S k) l ltac:(lia) ltac:(lia)) as Q. cbn [cum] in Q. pose proof (M k Hk). pose proof (M l Hl). rewrite x_step in Kp. nra.
  - assert (Q : x k <= q <= x (S k)). { pose proof (x_mono (S l) (S k) ltac:(lia)). lra. }
    rewrite (interp_in f p k Hk Kp), (interp_in f q k Hk Q). pose proof (M k Hk). nra.
Qed.
End Increasing.
Lemma interp_reversed f p : hi < lo -> interp p (map x (seq 0 (S m))) (map (cum f) (seq 0 (S m))) = if Rlt_dec hi p then cum f m else 0.
Proof.
  intros H. unfold interp. rewrite !last_map, x_end, hd_x. destruct (Rlt_dec hi p); [reflexivity|]. destruct (Rlt_dec p lo); [reflexivity|lra].
Qed.
End Fixed.
Lemma spacing_S lo hi m : spacing lo hi (S m) = (hi - lo) / INR m.
Proof. unfold spacing. replace (S m - 1)%nat with m by lia. reflexivity. Qed.
Ltac points_ n m Hm := destruct n as [|m]; [lia|]; assert (Hm : (1 <= m)%nat) by lia.

(** ** C114 *)
(** The value of the integral between its bounds is within K h (p - lo) of the integral, h being the distance of the points and K a Lipschitz
    constant of the integrand: it converges as the number of points grows, at any point. *)
Theorem tabulated_integral_error : forall lo hi n f Phi K p,
  lo < hi -> (2 <= n)%nat -> antiderivative_on lo hi f Phi -> lipschitz_on lo hi K f -> 0 <= K -> lo <= p <= hi ->
  exists v, evaluates lo hi n f p v /\ Rabs (v - (Phi p - Phi lo)) <= K * spacing lo hi n * (p - lo).
Proof.
  intros lo hi n f Phi K p Hlt Hn HA HL HK Hp. points_ n m Hm. rewrite spacing_S. eexists. split; [apply evaluates_iff; [exact Hm|reflexivity]|]. apply error; assumption.
Qed.
(** At the tabulated points it is exact for every polynomial of degree at most three. *)
Theorem tabulated_integral_exact_cubics : forall lo hi n a b c d i,
  lo < hi -> (2 <= n)%nat -> (i < n)%nat -> let p := lo + INR i * spacing lo hi n in
  evaluates lo hi n (fun t => a + b * t + c * t ^ 2 + d * t ^ 3) p
    ((a * p + b * p ^ 2 / 2 + c * p ^ 3 / 3 + d * p ^ 4 / 4) - (a * lo + b * lo ^ 2 / 2 + c * lo ^ 3 / 3 + d * lo ^ 4 / 4)).
Proof.
  intros lo hi n a b c d i Hlt Hn Hi. points_ n m Hm. rewrite spacing_S. intros p. apply evaluates_iff; [exact Hm|].
  pose proof (cum_cubic lo hi m a b c d i) as E. etransitivity; [symmetry; exact E|]. clear E. destruct (Nat.eq_dec i m) as [-> |N].
  - rewrite (interp_hi lo hi m Hm Hlt); [reflexivity|]. unfold p. pose proof (x_end lo hi m Hm). lra.
  - pose proof (h_pos lo hi m Hm Hlt) as Hp. rewrite (interp_in lo hi m Hm Hlt _ p i ltac:(lia)); [unfold p; ring|]. unfold p. rewrite S_INR. lra.
Qed.
(** It is linear in the integrand, ... *)
Theorem tabulated_integral_linear : forall lo hi n f g a b p v w,
  lo < hi -> (2 <= n)%nat -> evaluates lo hi n f p v -> evaluates lo hi n g p w -> evaluates lo hi n (fun t => a * f t + b * g t) p (a * v + b * w).
Proof.
  intros lo hi n f g a b p v w Hlt Hn Hv Hw. points_ n m Hm. apply evaluates_iff in Hv, Hw; try exact Hm. subst v w. apply evaluates_iff; [exact Hm|].
  destruct (Rle_dec p lo) as [H1|H1]; [rewrite !(interp_lo lo hi m Hm Hlt) by exact H1; ring|].
  destruct (Rle_dec hi p) as [H2|H2]; [rewrite !(interp_hi lo hi m Hm Hlt) by exact H2; symmetry; apply cum_linear|].
  destruct (locate lo hi m Hm p ltac:(lra)) as (k & Hk & Hkp). rewrite !(interp_in lo hi m Hm Hlt _ p k Hk Hkp), cum_linear, mean_linear. ring.
Qed.
(** ... increases with the upper limit if the integrand is not negative, ... *)
Theorem tabulated_integral_monotone : forall lo hi n f p q v w,
  lo < hi -> (2 <= n)%nat -> (forall c, lo <= c <= hi -> 0 <= f c) -> p <= q -> evaluates lo hi n f p v -> evaluates lo hi n f q w -> 0 <= v <= w.
Proof.
  intros lo hi n f p q v w Hlt Hn Hf Hpq Hv Hw. points_ n m Hm. apply evaluates_iff in Hv, Hw; try exact Hm. subst v w.
  set (I := fun t => interp t (map (fun i => lo + INR i * ((hi - lo) / INR m)) (seq 0 (S m))) (map (cum lo hi m f) (seq 0 (S m)))). change (0 <= I p <= I q).
  assert (C : forall t, I t = I (Rmax lo (Rmin hi t))).
  { intros t. unfold I. unfold Rmax, Rmin. destruct (Rle_dec hi t) as [H1|H1].
    - destruct (Rle_dec lo hi); [|lra]. rewrite !(interp_hi lo hi m Hm Hlt) by lra. reflexivity.
    - destruct (Rle_dec lo t) as [H2|H2]; [reflexivity|]. rewrite !(interp_lo lo hi m Hm Hlt) by lra. reflexivity. }
  assert (R : forall t, lo <= Rmax lo (Rmin hi t) <= hi). { intros t. split; [apply Rmax_l|]. apply Rmax_lub; [lra|apply Rmin_l]. }
  assert (Z : I lo = 0) by (apply (interp_lo lo hi m Hm Hlt); lra).
  assert (M : forall s t, lo <= s -> s <= t -> t <= hi -> I s <= I t) by (intros s t; apply (interp_mono_in lo hi m Hm Hlt f s t Hf)).
  rewrite (C p), (C q). split; [rewrite <- Z; apply M; [lra|apply R|apply R]|]. apply M; [apply R| |apply R].
  apply Rle_max_compat_l, Rle_min_compat_l. exact Hpq.
Qed.
(** ... is zero at and below the lower bound, and the whole integral at and above the upper bound; it must have been tabulated, with at
    least one point, and tabulating another integrand replaces it. *)
Theorem tabulated_integral_outside : forall lo hi n f, lo < hi -> (2 <= n)%nat ->
  (forall p, p <= lo -> evaluates lo hi n f p 0) /\ (forall p v, hi <= p -> evaluates lo hi n f p v <-> evaluates lo hi n f hi v).
Proof.
  intros lo hi n f Hlt Hn. points_ n m Hm. split.
  - intros p Hp. apply evaluates_iff; [exact Hm|]. symmetry. apply (interp_lo lo hi m Hm Hlt). exact Hp.
  - intros p v Hp. rewrite !evaluates_iff by exact Hm. rewrite !(interp_hi lo hi m Hm Hlt) by lra. reflexivity.
Qed.
Theorem integral_must_be_tabulated : forall lo hi n,
  (forall I p, new_integral lo hi n = Ok I -> evaluate_at I p = Err RuntimeError) /\ ((exists I, new_integral lo hi n = Ok I) <-> n <> 0%nat) /\
  (forall I f g, tabulate (tabulate I f) g = tabulate I g).
Proof.
  intros lo hi n. split; [|split].
  - intros I p H. destruct n; [discriminate|]. injection H as <-. reflexivity.
  - destruct n; cbn; split; intros H; try congruence; eauto. destruct H; discriminate.
  - reflexivity.
Qed.
(** With the bounds in the wrong order (which is not checked) the value is a step: 0 up to the upper bound, and the whole integral above it,
    in particular the whole integral at the lower bound, where it should be zero. *)
Theorem reversed_bounds_refuted : forall lo hi n f p, hi < lo -> (2 <= n)%nat ->
  exists total, (hi < p -> evaluates lo hi n f p total) /\ (p <= hi -> evaluates lo hi n f p 0) /\ ((forall t, f t = 1) -> total = hi - lo).
Proof.
  intros lo hi n f p Hgt Hn. points_ n m Hm. exists (cum lo hi m f m). split; [|split].
  - intros Hp. apply evaluates_iff; [exact Hm|]. rewrite (interp_reversed lo hi m Hm f p Hgt). destruct (Rlt_dec hi p); [reflexivity|lra].
  - intros Hp. apply evaluates_iff; [exact Hm|]. rewrite (interp_reversed lo hi m Hm f p Hgt). destruct (Rlt_dec hi p); [lra|reflexivity].
  - intros F1. assert (G : forall k, cum lo hi m f k = INR k * ((hi - lo) / INR m)).
    { induction k as [|k IH]; [cbn; ring|]. cbn [cum]. rewrite IH, S_INR. unfold mean. rewrite !F1. field. pose proof (INRm m Hm). lra. }
    rewrite G. pose proof (INRm m Hm). field. lra.
Qed.
(** Between the points it is not exact, even for linear integrands: with two points on [0, 1], the integral of t up to 1/2 is 1/4, not 1/8. *)
Theorem between_points_exact_refuted : evaluates 0 1 2 (fun t => t) (1 / 2) (1 / 4).
Proof.
  apply (evaluates_iff 0 1 1); [lia|]. rewrite (interp_in 0 1 1 ltac:(lia) ltac:(lra) (fun t => t) (1 / 2) 0); [|lia|]; unfold mean; cbn; lra.
Qed.
(** The hypotheses can be met: 3 t^2 on [0, 2], with antiderivative t^3 and Lipschitz constant 12. *)
Example integral_example : antiderivative_on 0 2 (fun t => 3 * t ^ 2) (fun t => t ^ 3) /\ lipschitz_on 0 2 12 (fun t => 3 * t ^ 2).
Proof.
  split.
  - intros c _. replace (3 * c ^ 2) with (INR 3 * c ^ pred 3) by (cbn; ring). apply derivable_pt_lim_pow.
  - intros a b Ha Hb. replace (3 * a ^ 2 - 3 * b ^ 2) with ((3 * (a + b)) * (a - b)) by ring. rewrite Rabs_mult, (Rabs_right (3 * (a + b))) by lra.
    apply Rmult_le_compat_r; [apply Rabs_pos|lra].
Qed.
