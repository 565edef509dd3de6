(** Convergence of additive Runge-Kutta methods (definitions in ConvergenceSpec.v). *)
From Verif Require Import Base Vec ConvergenceSpec ConvergenceFacts ConvergenceExact ConvergenceTrees.
Open Scope R_scope.

(** Auxiliary, nothing in the code by itself. *)
Record param := { pt : R; pa : nat -> nat -> nat -> R; pi : nat; pq : nat }.
Section RKs.
Context {I : Type}.
Variables (p m s : nat) (F : nat -> vec I -> vec I) (y : R -> vec I) (t0 T Ab : R).
Variables (D1 : nat -> vec I -> vec I -> vec I) (D2 : nat -> vec I -> vec I -> vec I -> vec I) (D3 : nat -> vec I -> vec I -> vec I -> vec I -> vec I) (M r : R).
Hypothesis p4 : (1 <= p <= 4)%nat.
Hypothesis r0 : 0 < r.
Hypothesis M0 : 0 <= M.
Hypothesis A0 : 0 <= Ab.
Hypothesis sm : all_smooth p m F (along y t0 T) D1 D2 D3 M r.
Hypothesis sol : solves m F y t0 T.
Notation f := (ff F y).
Notation k1' := (k1 y D1). Notation k2' := (k2 y D1 D2). Notation k3' := (k3 y D1 D2 D3).
(** Auxiliary, nothing in the code by itself. *)
Definition stage_sum (w : nat -> nat -> R) (K : nat -> nat -> vec I) : vec I := vsum m (fun r => vsum s (fun j => w r j *v K r j)).
(** Auxiliary, nothing in the code by itself. *)
Definition row (a : nat -> nat -> nat -> R) (i r j : nat) : R := a r i j.
(** Auxiliary, nothing in the code by itself. *)
Definition s0 t a i := stage_sum (row a i) (fun r _ => f r t).
(** Auxiliary, nothing in the code by itself. *)
Definition s1 t a i := stage_sum (row a i) (fun r j => k1' r t (s0 t a j)).
(** Auxiliary, nothing in the code by itself. *)
Definition s2 t a i := stage_sum (row a i) (fun r j => k2' r t (s0 t a j) (s1 t a j)).
(** Auxiliary, nothing in the code by itself. *)
Definition s3 t a i := stage_sum (row a i) (fun r j => k3' r t (s0 t a j) (s1 t a j) (s2 t a j)).
(** Auxiliary, nothing in the code by itself. *)
Definition kt t a h q i : vec I := f q t +v h *v k1' q t (s0 t a i) +v h ^ 2 *v k2' q t (s0 t a i) (s1 t a i) +v h ^ 3 *v k3' q t (s0 t a i) (s1 t a i) (s2 t a i).
(** Auxiliary, nothing in the code by itself. *)
Definition dom_s (z : param) (h : R) : Prop := t0 <= pt z <= T /\ (pi z < s)%nat /\ (pq z < m)%nat /\ forall q i j, Rabs (pa z q i j) <= Ab.
Lemma good_s z h : dom_s z h -> (pq z < m)%nat /\ t0 <= pt z <= T. Proof. intros (A & B & C & D). split; assumption. Qed.

Lemma stage_sum_bound w K B C : 0 <= C -> 0 <= B -> (forall q i, (q < m)%nat -> (i < s)%nat -> Rabs (w q i) <= B /\ sup_le (K q i) C) -> sup_le (stage_sum w K) (INR m * (INR s * (B * C))).
Proof. intros HC HB H. apply sup_vsum. intros q Hq. apply sup_vsum. intros i Hi. destruct (H q i Hq Hi) as [H1 H2]. apply sup_le_scal; assumption. Qed.
Lemma stage_sum_add w K L : stage_sum w (fun q i => K q i +v L q i) = stage_sum w K +v stage_sum w L.
Proof. unfold stage_sum. rewrite <- vsum_add. apply vsum_ext. intros q _. rewrite <- vsum_add. apply vsum_ext. intros i _. vring. Qed.
Lemma stage_sum_scal w c K : stage_sum w (fun q i => c *v K q i) = c *v stage_sum w K.
Proof. unfold stage_sum. rewrite <- vsum_scal. apply vsum_ext. intros q _. rewrite <- vsum_scal. apply vsum_ext. intros i _. vring. Qed.
Lemma stage_sum_sub w K L : stage_sum w (fun q i => K q i -v L q i) = stage_sum w K -v stage_sum w L.
Proof. unfold stage_sum. rewrite <- vsum_sub. apply vsum_ext. intros q _. rewrite <- vsum_sub. apply vsum_ext. intros i _. vring. Qed.
Lemma stage_sum_ext w K L : (forall q i, (q < m)%nat -> (i < s)%nat -> K q i = L q i) -> stage_sum w K = stage_sum w L.
Proof. intros H. apply vsum_ext. intros q Hq. apply vsum_ext. intros i Hi. rewrite H by assumption. reflexivity. Qed.
Lemma ord_S (K : R -> (nat -> nat -> nat -> R) -> nat -> nat -> vec I) : ord dom_s 0 (fun z _ => K (pt z) (pa z) (pq z) (pi z)) -> ord dom_s 0 (fun z _ => stage_sum (row (pa z) (pi z)) (K (pt z) (pa z))).
Proof.
  intros (C & h0 & H0 & HC & H). exists (INR m * (INR s * (Ab * C))), h0. split; [exact H0|]. pose proof (pos_INR m). pose proof (pos_INR s). split; [repeat apply Rmult_le_pos; assumption|].
  intros z h (X1 & X2 & X3 & X4) Hh. rewrite pow_O, Rmult_1_r. apply stage_sum_bound; [exact HC|exact A0|]. intros q i Hq Hi. split; [apply X4|].
  specialize (H {| pt := pt z; pa := pa z; pi := i; pq := q |} h). cbn [pt pa pi pq] in H. rewrite pow_O, Rmult_1_r in H. apply H; [|exact Hh]. split; [exact X1|]. split; [exact Hi|]. split; [exact Hq|exact X4].
Qed.
Lemma O_s0 : ord dom_s 0 (fun z _ => s0 (pt z) (pa z) (pi z)).
Proof. apply (ord_S (fun t a q i => f q t)). apply (ord_ff p m F y t0 T D1 D2 D3 M r M0 sm). exact good_s. Qed.
Lemma O_k1 : ord dom_s 0 (fun z _ => k1' (pq z) (pt z) (s0 (pt z) (pa z) (pi z))).
Proof. apply (ord_k1 p m F y t0 T D1 D2 D3 M r M0 sm dom_s pq pt good_s). exact O_s0. Qed.
Lemma O_s1 : ord dom_s 0 (fun z _ => s1 (pt z) (pa z) (pi z)).
Proof. apply (ord_S (fun t a q i => k1' q t (s0 t a i))). exact O_k1. Qed.
Lemma O_k2 : ord dom_s 0 (fun z _ => k2' (pq z) (pt z) (s0 (pt z) (pa z) (pi z)) (s1 (pt z) (pa z) (pi z))).
Proof. apply (ord_k2 p m F y t0 T D1 D2 D3 M r M0 sm dom_s pq pt good_s); [exact O_s0|exact O_s1]. Qed.
Lemma O_s2 : ord dom_s 0 (fun z _ => s2 (pt z) (pa z) (pi z)).
Proof. apply (ord_S (fun t a q i => k2' q t (s0 t a i) (s1 t a i))). exact O_k2. Qed.
Lemma O_k3 : ord dom_s 0 (fun z _ => k3' (pq z) (pt z) (s0 (pt z) (pa z) (pi z)) (s1 (pt z) (pa z) (pi z)) (s2 (pt z) (pa z) (pi z))).
Proof. apply (ord_k3 p m F y t0 T D1 D2 D3 M r M0 sm dom_s pq pt good_s); [exact O_s0|exact O_s1|exact O_s2]. Qed.
Lemma O_s3 : ord dom_s 0 (fun z _ => s3 (pt z) (pa z) (pi z)).
Proof. apply (ord_S (fun t a q i => k3' q t (s0 t a i) (s1 t a i) (s2 t a i))). exact O_k3. Qed.
Lemma stage_value t a h i : h *v stage_sum (row a i) (kt t a h) = (h *v s0 t a i +v h ^ 2 *v s1 t a i +v h ^ 3 *v s2 t a i) +v h ^ 4 *v s3 t a i.
Proof. unfold kt. rewrite !stage_sum_add, !stage_sum_scal. fold (s0 t a i). fold (s1 t a i). fold (s2 t a i). fold (s3 t a i). vring. Qed.

(** the approximate stage values satisfy the stage equations up to O(h^p), and are close to the solution *)
Lemma defect : ord dom_s p (fun z h => F (pq z) (y (pt z) +v h *v stage_sum (row (pa z) (pi z)) (kt (pt z) (pa z) h)) -v kt (pt z) (pa z) h (pq z) (pi z)).
Proof.
  apply (expand_at p m F y t0 T D1 D2 D3 M r p4 r0 M0 sm dom_s pq pt good_s (fun z => s0 (pt z) (pa z) (pi z)) (fun z => s1 (pt z) (pa z) (pi z)) (fun z => s2 (pt z) (pa z) (pi z)) p
          (fun z h => h *v stage_sum (row (pa z) (pi z)) (kt (pt z) (pa z) h))); [exact O_s0|exact O_s1|exact O_s2|lia|].
  apply (O_ext dom_s p (fun z h => h ^ 4 *v s3 (pt z) (pa z) (pi z))); [intros z h _ _ i; rewrite stage_value; vunfold; ring|].
  apply (O_weak dom_s (4 + 0)); [lia|]. apply (O_pow dom_s 0 4 (fun z _ => s3 (pt z) (pa z) (pi z))). exact O_s3.
Qed.
Lemma near_solution : ord dom_s 1 (fun z h => h *v stage_sum (row (pa z) (pi z)) (kt (pt z) (pa z) h)).
Proof.
  apply (O_ext dom_s 1 (fun z h => h ^ 1 *v s0 (pt z) (pa z) (pi z) +v (h ^ 2 *v s1 (pt z) (pa z) (pi z) +v (h ^ 3 *v s2 (pt z) (pa z) (pi z) +v h ^ 4 *v s3 (pt z) (pa z) (pi z))))); [intros; rewrite stage_value; vunfold; ring|].
  apply O_add; [|apply O_add; [|apply O_add]].
  - apply (O_weak dom_s (1 + 0)); [lia|]. apply (O_pow dom_s 0 1 (fun z _ => s0 (pt z) (pa z) (pi z))). exact O_s0.
  - apply (O_weak dom_s (2 + 0)); [lia|]. apply (O_pow dom_s 0 2 (fun z _ => s1 (pt z) (pa z) (pi z))). exact O_s1.
  - apply (O_weak dom_s (3 + 0)); [lia|]. apply (O_pow dom_s 0 3 (fun z _ => s2 (pt z) (pa z) (pi z))). exact O_s2.
  - apply (O_weak dom_s (4 + 0)); [lia|]. apply (O_pow dom_s 0 4 (fun z _ => s3 (pt z) (pa z) (pi z))). exact O_s3.
Qed.

(** ** The order conditions *)
Section At.
Variable t : R.
Hypothesis Ht : t0 <= t <= T.
Notation d1 := (fun q => D1 q (y t)). Notation d2 := (fun q => D2 q (y t)). Notation d3 := (fun q => D3 q (y t)). Notation ft := (fun q => f q t).
Lemma aBf q : (q < m)%nat -> sup_le (ft q) M. Proof. intros Hq. apply (at_y p m F y t0 T D1 D2 D3 M r sm q t Hq Ht). Qed.
Lemma aB1 q : (q < m)%nat -> bounded1 M (d1 q). Proof. intros Hq. apply (at_y p m F y t0 T D1 D2 D3 M r sm q t Hq Ht). Qed.
Lemma aB2 q : (q < m)%nat -> bounded2 M (d2 q). Proof. intros Hq. apply (at_y p m F y t0 T D1 D2 D3 M r sm q t Hq Ht). Qed.
Lemma aB3 q : (q < m)%nat -> bounded3 M (d3 q). Proof. intros Hq. apply (at_y p m F y t0 T D1 D2 D3 M r sm q t Hq Ht). Qed.
Lemma s0_N a i : s0 t a i = N1 m ft (fun q => cc s a q i).
Proof. unfold s0, stage_sum. apply (L1 m ft s (row a i)). Qed.
Lemma s1_N a i : s1 t a i = N2 m ft d1 (fun q u => dd s a q u i).
Proof.
  unfold s1. rewrite (stage_sum_ext _ _ (fun q j => D1 q (y t) (N1 m ft (fun u => cc s a u j)))) by (intros q j _ _; rewrite s0_N; reflexivity).
  apply (L2 m ft d1 M aB1 s (row a i) (fun u j => cc s a u j)).
Qed.
Lemma s2_N a i : s2 t a i = N3 m ft d1 d2 (fun q u v => rsum s (fun j => a q i j * dd s a u v j)) (fun q u v => rsum s (fun j => a q i j * (cc s a u j * cc s a v j))).
Proof.
  unfold s2. rewrite (stage_sum_ext _ _ (fun q j => K2 d1 d2 q (N1 m ft (fun u => cc s a u j)) (N2 m ft d1 (fun u v => dd s a u v j)))) by (intros q j _ _; rewrite s0_N, s1_N; reflexivity).
  apply (L3 m ft d1 d2 M aB1 aB2 s (row a i) (fun u j => cc s a u j) (fun u v j => dd s a u v j)).
Qed.
Variables (a : nat -> nat -> nat -> R) (b : nat -> nat -> R).
(** Auxiliary, nothing in the code by itself. *)
Definition b0 := stage_sum b (fun q _ => f q t).
(** Auxiliary, nothing in the code by itself. *)
Definition b1 := stage_sum b (fun q i => k1' q t (s0 t a i)).
(** Auxiliary, nothing in the code by itself. *)
Definition b2 := stage_sum b (fun q i => k2' q t (s0 t a i) (s1 t a i)).
(** Auxiliary, nothing in the code by itself. *)
Definition b3 := stage_sum b (fun q i => k3' q t (s0 t a i) (s1 t a i) (s2 t a i)).
Lemma b0_N : b0 = N1 m ft (fun q => rsum s (fun i => b q i)). Proof. apply (L1 m ft s b). Qed.
Lemma b1_N : b1 = N2 m ft d1 (fun q u => rsum s (fun i => b q i * cc s a u i)).
Proof.
  unfold b1. rewrite (stage_sum_ext _ _ (fun q j => D1 q (y t) (N1 m ft (fun u => cc s a u j)))) by (intros q j _ _; rewrite s0_N; reflexivity).
  apply (L2 m ft d1 M aB1 s b (fun u j => cc s a u j)).
Qed.
Lemma b2_N : b2 = N3 m ft d1 d2 (fun q u v => rsum s (fun i => b q i * dd s a u v i)) (fun q u v => rsum s (fun i => b q i * (cc s a u i * cc s a v i))).
Proof.
  unfold b2. rewrite (stage_sum_ext _ _ (fun q j => K2 d1 d2 q (N1 m ft (fun u => cc s a u j)) (N2 m ft d1 (fun u v => dd s a u v j)))) by (intros q j _ _; rewrite s0_N, s1_N; reflexivity).
  apply (L3 m ft d1 d2 M aB1 aB2 s b (fun u j => cc s a u j) (fun u v j => dd s a u v j)).
Qed.
Lemma b3_N : b3 = N4 m ft d1 d2 d3 (fun q u v w => rsum s (fun i => b q i * rsum s (fun j => a u i j * dd s a v w j))) (fun q u v w => rsum s (fun i => b q i * rsum s (fun j => a u i j * (cc s a v j * cc s a w j))))
  (fun q u v w => rsum s (fun i => b q i * (cc s a u i * dd s a v w i))) (fun q u v w => rsum s (fun i => b q i * (cc s a u i * (cc s a v i * cc s a w i)))).
Proof.
  unfold b3. rewrite (stage_sum_ext _ _ (fun q j => K3 d1 d2 d3 q (N1 m ft (fun u => cc s a u j)) (N2 m ft d1 (fun u v => dd s a u v j))
     (N3 m ft d1 d2 (fun u v w => rsum s (fun l => a u j l * dd s a v w l)) (fun u v w => rsum s (fun l => a u j l * (cc s a v l * cc s a w l)))))) by (intros q j _ _; rewrite s0_N, s1_N, s2_N; reflexivity).
  apply (L4 m ft d1 d2 d3 M aB1 aB2 aB3 s b (fun u j => cc s a u j) (fun u v j => dd s a u v j) (fun u v w j => rsum s (fun l => a u j l * dd s a v w l)) (fun u v w j => rsum s (fun l => a u j l * (cc s a v l * cc s a w l)))).
Qed.
(** the exact solution in the same terms *)
Lemma one_stage (c : R) (K : nat -> vec I) : c *v vsum m K = vsum m (fun q => vsum 1 (fun _ => c *v K q)).
Proof. rewrite <- vsum_scal. apply vsum_ext. intros q _. cbn. vring. Qed.
Lemma e1_N : e1 m F y t = N1 m ft (fun _ => 1).
Proof. unfold e1, N1. apply vsum_ext. intros q _. vring. Qed.
Lemma e2_N : e2 m F y D1 t = N2 m ft d1 (fun _ _ => rsum 1 (fun _ => 1/2 * 1)).
Proof. unfold e2. rewrite one_stage. rewrite e1_N. apply (L2 m ft d1 M aB1 1 (fun _ _ => 1/2) (fun _ _ => 1)). Qed.
Lemma e3_N : e3 m F y D1 D2 t = N3 m ft d1 d2 (fun _ _ _ => rsum 1 (fun _ => 1/3 * rsum 1 (fun _ => 1/2 * 1))) (fun _ _ _ => rsum 1 (fun _ => 1/3 * (1 * 1))).
Proof. unfold e3. rewrite one_stage, e1_N, e2_N. apply (L3 m ft d1 d2 M aB1 aB2 1 (fun _ _ => 1/3) (fun _ _ => 1) (fun _ _ _ => rsum 1 (fun _ => 1/2 * 1))). Qed.
Lemma e4_N : e4 m F y D1 D2 D3 t = N4 m ft d1 d2 d3 (fun _ _ _ _ => rsum 1 (fun _ => 1/4 * rsum 1 (fun _ => 1/3 * rsum 1 (fun _ => 1/2 * 1)))) (fun _ _ _ _ => rsum 1 (fun _ => 1/4 * rsum 1 (fun _ => 1/3 * (1 * 1))))
   (fun _ _ _ _ => rsum 1 (fun _ => 1/4 * (1 * rsum 1 (fun _ => 1/2 * 1)))) (fun _ _ _ _ => rsum 1 (fun _ => 1/4 * (1 * (1 * 1)))).
Proof.
  unfold e4. rewrite one_stage, e1_N, e2_N, e3_N.
  apply (L4 m ft d1 d2 d3 M aB1 aB2 aB3 1 (fun _ _ => 1/4) (fun _ _ => 1) (fun _ _ _ => rsum 1 (fun _ => 1/2 * 1)) (fun _ _ _ _ => rsum 1 (fun _ => 1/3 * rsum 1 (fun _ => 1/2 * 1))) (fun _ _ _ _ => rsum 1 (fun _ => 1/3 * (1 * 1)))).
Qed.
Variable delta : R.
Hypothesis d0 : 0 <= delta.
Hypothesis oc : ark_order m s a b p delta.
(** Auxiliary, nothing in the code by itself. *)
Definition KK : R := 4 * ((mm m) ^ 4 + (mm m) ^ 3 + (mm m) ^ 2 + mm m) * (M ^ 4 + M ^ 3 + M ^ 2 + M).
Lemma KK_ge x z : In x [mm m; mm m ^ 2; mm m ^ 3; mm m ^ 4] -> In z [M; M ^ 2; M ^ 3; M ^ 4] -> 4 * x * z <= KK.
Proof.
  intros Hx Hz. unfold KK. pose proof (mm0 m) as Q. pose proof (pow_le _ 2 Q). pose proof (pow_le _ 3 Q). pose proof (pow_le _ 4 Q). pose proof (pow_le _ 2 M0). pose proof (pow_le _ 3 M0). pose proof (pow_le _ 4 M0).
  assert (0 <= x <= mm m ^ 4 + mm m ^ 3 + mm m ^ 2 + mm m) by (cbn [In] in Hx; destruct Hx as [<-|[<-|[<-|[<-|[]]]]]; lra).
  assert (0 <= z <= M ^ 4 + M ^ 3 + M ^ 2 + M) by (cbn [In] in Hz; destruct Hz as [<-|[<-|[<-|[<-|[]]]]]; lra).
  apply Rmult_le_compat; lra.
Qed.
Lemma cond1 : (1 <= p)%nat -> sup_le (b0 -v e1 m F y t) (KK * delta).
Proof.
  intros Hp. rewrite b0_N, e1_N. eapply sup_mono; [apply (N1_close m ft M M0 aBf delta); [exact d0|]; intros q Hq; apply oc; assumption|].
  replace (mm m * (delta * M)) with ((mm m * M) * delta) by ring. apply Rmult_le_compat_r; [exact d0|]. pose proof (KK_ge (mm m) M). cbn [In] in H. pose proof (mm0 m). assert (0 <= mm m * M) by (apply Rmult_le_pos; assumption). lra.
Qed.
Lemma cond2 : (2 <= p)%nat -> sup_le (b1 -v e2 m F y D1 t) (KK * delta).
Proof.
  intros Hp. rewrite b1_N, e2_N. eapply sup_mono; [apply (N2_close m ft d1 M M0 aBf aB1 delta); [exact d0|]; intros q u Hq Hu; unfold close; cbn [rsum]; replace (0 + 1/2 * 1) with (1/2) by field; apply oc; assumption|].
  replace (mm m * (mm m * (delta * (M * M)))) with ((mm m ^ 2 * M ^ 2) * delta) by ring. apply Rmult_le_compat_r; [exact d0|]. pose proof (KK_ge (mm m ^ 2) (M ^ 2)). cbn [In] in H.
  assert (0 <= mm m ^ 2 * M ^ 2) by (apply Rmult_le_pos; apply pow_le; [apply mm0|exact M0]). lra.
Qed.
Lemma cond3 : (3 <= p)%nat -> sup_le (b2 -v e3 m F y D1 D2 t) (KK * delta).
Proof.
  intros Hp. rewrite b2_N, e3_N. eapply sup_mono; [apply (N3_close m ft d1 d2 M M0 aBf aB1 aB2 delta); [exact d0|]|].
  - intros q u v Hq Hu Hv. unfold close. cbn [rsum]. replace (0 + 1/3 * (0 + 1/2 * 1)) with (1/6) by field. replace (0 + 1/3 * (1 * 1)) with (1/3) by field. destruct oc as (_ & _ & O3 & _). destruct (O3 Hp q u v Hq Hu Hv) as [A B]. split; [exact B|exact A].
  - unfold M3. replace (2 * (mm m * (mm m * (mm m * (delta * (M * (M * M))))))) with ((2 * mm m ^ 3 * M ^ 3) * delta) by ring. apply Rmult_le_compat_r; [exact d0|]. pose proof (KK_ge (mm m ^ 3) (M ^ 3)). cbn [In] in H.
    assert (0 <= mm m ^ 3 * M ^ 3) by (apply Rmult_le_pos; apply pow_le; [apply mm0|exact M0]). lra.
Qed.
Lemma cond4 : (4 <= p)%nat -> sup_le (b3 -v e4 m F y D1 D2 D3 t) (KK * delta).
Proof.
  intros Hp. rewrite b3_N, e4_N. eapply sup_mono; [apply (N4_close m ft d1 d2 d3 M M0 aBf aB1 aB2 aB3 delta); [exact d0|]|].
  - intros q u v w Hq Hu Hv Hw. unfold close. cbn [rsum]. replace (0 + 1/4 * (0 + 1/3 * (0 + 1/2 * 1))) with (1/24) by field. replace (0 + 1/4 * (0 + 1/3 * (1 * 1))) with (1/12) by field.
    replace (0 + 1/4 * (1 * (0 + 1/2 * 1))) with (1/8) by field. replace (0 + 1/4 * (1 * (1 * 1))) with (1/4) by field.
    destruct oc as (_ & _ & _ & O4). destruct (O4 Hp q u v w Hq Hu Hv Hw) as (A & B & C & D). split; [exact D|]. split; [exact C|]. split; [exact B|exact A].
  - unfold M4. replace (4 * (mm m * (mm m * (mm m * (mm m * (delta * (M * (M * (M * M))))))))) with ((4 * mm m ^ 4 * M ^ 4) * delta) by ring. apply Rmult_le_compat_r; [exact d0|]. apply KK_ge; cbn [In]; auto.
Qed.
Lemma step_value h : h *v stage_sum b (kt t a h) = h *v (b0 +v h *v b1 +v h ^ 2 *v b2 +v h ^ 3 *v b3).
Proof. unfold kt. rewrite !stage_sum_add, !stage_sum_scal. reflexivity. Qed.
End At.

(** ** Local error *)
Lemma min_le x u v : x <= Rmin u v -> x <= u /\ x <= v.
Proof. intros H. split; (eapply Rle_trans; [exact H|]); [apply Rmin_l|apply Rmin_r]. Qed.
Lemma local_error : exists C h0, 0 < h0 /\ 0 <= C /\ forall t h a b delta, t0 <= t -> t + h <= T -> 0 < h <= h0 -> 0 <= delta -> coefficients_at_most a b Ab -> ark_order m s a b p delta ->
  sup_le (y (t + h) -v (y t +v h *v stage_sum b (kt t a h))) (C * (h * (h ^ p + delta))).
Proof.
  destruct (exact_expansion p m F y t0 T D1 D2 D3 M r p4 r0 M0 sm sol p (Nat.le_refl p)) as (C & h0 & H0 & HC & H).
  destruct (ord_e1 p m F y t0 T D1 D2 D3 M r M0 sm) as (E1 & g1 & G1 & P1 & Q1). destruct (ord_e2 p m F y t0 T D1 D2 D3 M r M0 sm) as (E2 & g2 & G2 & P2 & Q2).
  destruct (ord_e3 p m F y t0 T D1 D2 D3 M r M0 sm) as (E3 & g3 & G3 & P3 & Q3). destruct (ord_e4 p m F y t0 T D1 D2 D3 M r M0 sm) as (E4 & g4 & G4 & P4 & Q4).
  destruct O_k1 as (X1 & f1 & F1 & R1 & S1). destruct O_k2 as (X2 & f2 & F2 & R2 & S2). destruct O_k3 as (X3 & f3 & F3 & R3 & S3).
  set (ms := INR m * (INR s * Ab)). assert (ms0 : 0 <= ms) by (pose proof (pos_INR m); pose proof (pos_INR s); unfold ms; repeat apply Rmult_le_pos; assumption).
  set (Z := KK + ms * M + ms * X1 + ms * X2 + ms * X3 + E1 + E2 + E3 + E4).
  assert (K0 : 0 <= KK). { unfold KK. pose proof (mm0 m) as Q. pose proof (pow_le _ 2 Q). pose proof (pow_le _ 3 Q). pose proof (pow_le _ 4 Q). pose proof (pow_le _ 2 M0). pose proof (pow_le _ 3 M0). pose proof (pow_le _ 4 M0). repeat apply Rmult_le_pos; lra. }
  assert (Y0 : 0 <= ms * M) by (apply Rmult_le_pos; assumption). assert (Y1 : 0 <= ms * X1) by (apply Rmult_le_pos; assumption). assert (Y2 : 0 <= ms * X2) by (apply Rmult_le_pos; assumption). assert (Y3 : 0 <= ms * X3) by (apply Rmult_le_pos; assumption).
  assert (Z0 : 0 <= Z) by (unfold Z; lra).
  set (hm := Rmin (Rmin h0 1) (Rmin (Rmin (Rmin g1 g2) (Rmin g3 g4)) (Rmin (Rmin f1 f2) f3))).
  exists (C + 4 * Z), hm. split; [unfold hm; repeat apply Rmin_pos; lra|]. split; [lra|].
  intros t h a b delta Ht HT Hh d0 Hc oc.
  assert (L : h <= h0 /\ h <= 1 /\ h <= g1 /\ h <= g2 /\ h <= g3 /\ h <= g4 /\ h <= f1 /\ h <= f2 /\ h <= f3).
  { destruct Hh as [_ Hh]. unfold hm in Hh. apply min_le in Hh. destruct Hh as [Ha Hh]. apply min_le in Ha. apply min_le in Hh. destruct Ha as [A1 A2], Hh as [Hg Hf]. apply min_le in Hg. apply min_le in Hf.
    destruct Hg as [Hg Hg'], Hf as [Hf Hf']. apply min_le in Hg. apply min_le in Hg'. apply min_le in Hf. tauto. }
  destruct L as (L0 & L1 & Lg1 & Lg2 & Lg3 & Lg4 & Lf1 & Lf2 & Lf3).
  assert (Ht' : t0 <= t <= T) by lra.
  assert (dS : forall q i, (q < m)%nat -> (i < s)%nat -> dom_s {| pt := t; pa := a; pi := i; pq := q |} h) by (intros q i Hq Hi; split; [exact Ht'|]; split; [exact Hi|]; split; [exact Hq|]; intros; apply Hc).
  assert (Hb : forall q i, Rabs (b q i) <= Ab) by (intros q i; apply (Hc q i 0%nat)).
  assert (SS : forall K X, 0 <= X -> (forall q i, (q < m)%nat -> (i < s)%nat -> sup_le (K q i) X) -> sup_le (stage_sum b K) (ms * X)).
  { intros K X HX HK. eapply sup_mono; [apply (stage_sum_bound b K Ab X HX A0); intros q i Hq Hi; split; [apply Hb|apply HK; assumption]|]. unfold ms. right. ring. }
  assert (V0 : sup_le (b0 t b) (ms * M)). { apply SS; [exact M0|]. intros q i Hq Hi. apply (aBf t Ht'). exact Hq. }
  assert (V1 : sup_le (b1 t a b) (ms * X1)). { apply SS; [exact R1|]. intros q i Hq Hi. specialize (S1 _ h (dS q i Hq Hi)). rewrite pow_O, Rmult_1_r in S1. apply S1. lra. }
  assert (V2 : sup_le (b2 t a b) (ms * X2)). { apply SS; [exact R2|]. intros q i Hq Hi. specialize (S2 _ h (dS q i Hq Hi)). rewrite pow_O, Rmult_1_r in S2. apply S2. lra. }
  assert (V3 : sup_le (b3 t a b) (ms * X3)). { apply SS; [exact R3|]. intros q i Hq Hi. specialize (S3 _ h (dS q i Hq Hi)). rewrite pow_O, Rmult_1_r in S3. apply S3. lra. }
  specialize (Q1 t h Ht'). specialize (Q2 t h Ht'). specialize (Q3 t h Ht'). specialize (Q4 t h Ht'). rewrite pow_O, Rmult_1_r in Q1, Q2, Q3, Q4. specialize (Q1 ltac:(lra)). specialize (Q2 ltac:(lra)). specialize (Q3 ltac:(lra)). specialize (Q4 ltac:(lra)).
  set (eta := h ^ p + delta). assert (hp : 0 < h ^ p) by (apply pow_lt; lra).
  assert (TERM : forall j (B e : vec I) X E, (X + E <= Z) -> sup_le B X -> sup_le e E -> ((S j <= p)%nat -> sup_le (B -v e) (KK * delta)) -> sup_le (h ^ j *v (B -v e)) (Z * eta)).
  { intros j B e X E HX HB He Hk. assert (hj : 0 < h ^ j) by (apply pow_lt; lra). assert (hj1 : h ^ j <= 1) by (rewrite <- (pow1 j); apply pow_incr; lra).
    assert (sg : forall w : vec I, forall B', sup_le w B' -> sup_le (h ^ j *v w) (h ^ j * B')) by (intros w B' Hw; pose proof (sup_scal w B' (h ^ j) Hw) as S'; rewrite Rabs_pos_eq in S' by lra; exact S').
    intros c. destruct (Nat.le_gt_cases (S j) p) as [Hj|Hj].
    - pose proof (sg _ _ (Hk Hj) c) as A. eapply Rle_trans; [exact A|]. assert (0 <= KK * delta) by (apply Rmult_le_pos; assumption). apply (Rle_trans _ (1 * (KK * delta))); [apply Rmult_le_compat_r; assumption|].
      rewrite Rmult_1_l. unfold eta. apply Rmult_le_compat; try assumption; unfold Z; lra.
    - pose proof (sg _ _ (sup_sub B e X E HB He) c) as A. eapply Rle_trans; [exact A|]. assert (0 <= X + E) by (pose proof (sup_ge0 B X c HB); pose proof (sup_ge0 e E c He); lra).
      rewrite (Rmult_comm Z). apply Rmult_le_compat; [lra|lra| |exact HX]. unfold eta. apply (Rle_trans _ (h ^ p)); [|lra]. replace j with (p + (j - p))%nat by lia. rewrite pow_add. rewrite <- (Rmult_1_r (h ^ p)) at 2.
      apply Rmult_le_compat_l; [lra|]. rewrite <- (pow1 (j - p)). apply pow_incr. lra. }
  assert (T0 : sup_le (h ^ 0 *v (b0 t b -v e1 m F y t)) (Z * eta)) by (apply (TERM 0%nat _ _ (ms * M) E1); [unfold Z; lra|exact V0|exact Q1|apply (cond1 t Ht' a b delta d0 oc)]).
  assert (T1 : sup_le (h ^ 1 *v (b1 t a b -v e2 m F y D1 t)) (Z * eta)) by (apply (TERM 1%nat _ _ (ms * X1) E2); [unfold Z; lra|exact V1|exact Q2|apply (cond2 t Ht' a b delta d0 oc)]).
  assert (T2 : sup_le (h ^ 2 *v (b2 t a b -v e3 m F y D1 D2 t)) (Z * eta)) by (apply (TERM 2%nat _ _ (ms * X2) E3); [unfold Z; lra|exact V2|exact Q3|apply (cond3 t Ht' a b delta d0 oc)]).
  assert (T3 : sup_le (h ^ 3 *v (b3 t a b -v e4 m F y D1 D2 D3 t)) (Z * eta)) by (apply (TERM 3%nat _ _ (ms * X3) E4); [unfold Z; lra|exact V3|exact Q4|apply (cond4 t Ht' a b delta d0 oc)]).
  rewrite (step_value t a b h).
  apply (sup_ext ((y (t + h) -v y t -v poly m F y D1 D2 D3 t h) -v h *v (((h ^ 0 *v (b0 t b -v e1 m F y t) +v h ^ 1 *v (b1 t a b -v e2 m F y D1 t)) +v h ^ 2 *v (b2 t a b -v e3 m F y D1 D2 t)) +v h ^ 3 *v (b3 t a b -v e4 m F y D1 D2 D3 t)))).
  { intros c. unfold poly. vunfold. ring. }
  assert (A : sup_le (y (t + h) -v y t -v poly m F y D1 D2 D3 t h) (C * (h * eta))).
  { eapply sup_mono; [apply (H t h); [split; assumption|lra]|]. apply Rmult_le_compat_l; [exact HC|]. rewrite pow_add, pow_1, Rmult_comm. apply Rmult_le_compat_l; [lra|]. unfold eta. lra. }
  eapply sup_mono; [apply sup_sub; [exact A|apply sup_scal; apply sup_add; [apply sup_add; [apply sup_add|]|]; eassumption]|].
  rewrite Rabs_pos_eq by lra. fold eta. right. ring.
Qed.
End RKs.
