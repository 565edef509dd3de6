(** Convergence of additive Runge-Kutta methods: stability and global error (definitions in ConvergenceSpec.v). *)
From Verif Require Import Base Vec ConvergenceSpec ConvergenceFacts ConvergenceExact ConvergenceTrees ConvergenceRK.
Open Scope R_scope.

Lemma largest {A : Type} (l : list A) (g : A -> R) : exists k, 0 <= k /\ (forall x, In x l -> Rabs (g x) <= k) /\ (k = 0 \/ exists x, In x l /\ Rabs (g x) = k).
Proof.
  induction l as [|x l (k & K0 & K1 & K2)]; [exists 0; split; [lra|]; split; [intros x []|left; reflexivity]|].
  destruct (Rle_dec (Rabs (g x)) k) as [H|H].
  - exists k. split; [exact K0|]. split; [intros z [<-|Hz]; [exact H|apply K1; exact Hz]|]. destruct K2 as [K2|(z & Hz & E)]; [left; exact K2|right; exists z; split; [right; exact Hz|exact E]].
  - exists (Rabs (g x)). split; [apply Rabs_pos|]. split; [intros z [<-|Hz]; [lra|pose proof (K1 z Hz); lra]|]. right. exists x. split; [left; reflexivity|reflexivity].
Qed.
Lemma largest_vec {I : Type} (m s : nat) (g : nat -> nat -> vec I) : finite_index I -> exists k, 0 <= k /\ (forall q i, (q < m)%nat -> (i < s)%nat -> sup_le (g q i) k) /\
  (k = 0 \/ exists q i c, (q < m)%nat /\ (i < s)%nat /\ Rabs (g q i c) = k).
Proof.
  intros (l & Hl). destruct (largest (list_prod (list_prod (seq 0 m) (seq 0 s)) l) (fun z => g (fst (fst z)) (snd (fst z)) (snd z))) as (k & K0 & K1 & K2).
  exists k. split; [exact K0|]. split.
  - intros q i Hq Hi c. apply (K1 (q, i, c)). apply in_prod; [|apply Hl]. apply in_prod; apply in_seq; lia.
  - destruct K2 as [K2|(((q & i) & c) & Hz & E)]; [left; exact K2|]. right. exists q, i, c. apply in_prod_iff in Hz. destruct Hz as [Hz _]. apply in_prod_iff in Hz. destruct Hz as [Hq Hi]. apply in_seq in Hq, Hi.
    split; [lia|]. split; [lia|exact E].
Qed.

Section Main.
Context {I : Type}.
Variables (p m s : nat) (F : nat -> vec I -> vec I) (y : R -> vec I) (t0 T Ab L : R) (U : vec I -> Prop).
Variables (D1 : nat -> vec I -> vec I -> vec I) (D2 : nat -> vec I -> vec I -> vec I -> vec I) (D3 : nat -> vec I -> vec I -> vec I -> vec I -> vec I) (M r : R).
Hypothesis fin : finite_index I.
Hypothesis p4 : (1 <= p <= 4)%nat.
Hypothesis r0 : 0 < r.
Hypothesis M0 : 0 <= M.
Hypothesis A0 : 0 <= Ab.
Hypothesis sm : all_smooth p m F (along y t0 T) D1 D2 D3 M r.
Hypothesis sol : solves m F y t0 T.
Hypothesis lip : forall q, (q < m)%nat -> lipschitz L (F q) U.
Hypothesis nb : neighbourhood y t0 T U.
Hypothesis L0 : 0 <= L.
Notation SSum := (stage_sum m s). Notation KT := (kt m s F y D1 D2 D3).

Lemma one_step : exists C1 C2 h0, 0 <= C1 /\ 0 <= C2 /\ 0 < h0 /\ forall t h a b delta eps x x', t0 <= t -> t + h <= T -> 0 < h <= h0 -> 0 <= delta -> 0 <= eps -> coefficients_at_most a b Ab -> ark_order m s a b p delta ->
  ark_step m s a b F U h x x' -> sup_le (x -v y t) eps -> sup_le (x' -v y (t + h)) ((1 + C1 * h) * eps + C2 * h * (h ^ p + delta)).
Proof.
  destruct (local_error p m s F y t0 T Ab D1 D2 D3 M r p4 r0 M0 A0 sm sol) as (C & hl & Hl & HC & HL).
  destruct (defect p m s F y t0 T Ab D1 D2 D3 M r p4 r0 M0 A0 sm) as (D & hd & Hd & HD & HDD).
  destruct (near_solution p m s F y t0 T Ab D1 D2 D3 M r p4 M0 A0 sm) as (N & hn & Hn & HN & HNN).
  destruct nb as (rho & Hrho & HU).
  set (ms := INR m * (INR s * Ab)). assert (ms0 : 0 <= ms) by (pose proof (pos_INR m); pose proof (pos_INR s); unfold ms; repeat apply Rmult_le_pos; assumption).
  assert (Lms : 0 <= L * ms) by (apply Rmult_le_pos; assumption).
  set (g1 := 1 / (2 * (L * ms + 1))). set (g2 := rho / (N + 1)).
  assert (G1 : 0 < g1) by (unfold g1; apply Rdiv_lt_0_compat; lra). assert (G2 : 0 < g2) by (unfold g2; apply Rdiv_lt_0_compat; lra).
  exists (2 * (ms * L)), (2 * (ms * D) + C), (Rmin (Rmin hl hd) (Rmin hn (Rmin g1 g2))).
  assert (msL : 0 <= ms * L) by (apply Rmult_le_pos; assumption). assert (msD : 0 <= ms * D) by (apply Rmult_le_pos; assumption).
  split; [lra|]. split; [lra|]. split; [repeat apply Rmin_pos; assumption|].
  intros t h a b delta eps x x' Ht HT [Hh Hm] d0 e0 Hc oc (k & KU & KE & KX) Hx.
  apply min_le in Hm. destruct Hm as [Hm Hm']. apply min_le in Hm. apply min_le in Hm'. destruct Hm as [h1 h2], Hm' as [h3 Hm']. apply min_le in Hm'. destruct Hm' as [h4 h5].
  assert (Ht' : t0 <= t <= T) by lra.
  assert (dS : forall q i, (q < m)%nat -> (i < s)%nat -> dom_s m s t0 T Ab {| pt := t; pa := a; pi := i; pq := q |} h) by (intros q i Hq Hi; split; [exact Ht'|]; split; [exact Hi|]; split; [exact Hq|]; intros; apply Hc).
  assert (Hb : forall q i, Rabs (b q i) <= Ab) by (intros q i; apply (Hc q i 0%nat)).
  assert (Lh : L * ms * h <= 1 / 2).
  { apply (Rle_trans _ ((L * ms) * g1)); [apply Rmult_le_compat_l; assumption|]. unfold g1. apply (Rmult_le_reg_r (2 * (L * ms + 1))); [lra|]. field_simplify; lra. }
  assert (Nh : N * h <= rho).
  { apply (Rle_trans _ (N * g2)); [apply Rmult_le_compat_l; assumption|]. unfold g2. apply (Rmult_le_reg_r (N + 1)); [lra|]. field_simplify; lra. }
  destruct (largest_vec m s (fun q i => k q i -v KT t a h q i) fin) as (kap & K0 & K1 & K2).
  assert (hp : 0 < h ^ p) by (apply pow_lt; exact Hh).
  assert (SSb : forall w, (forall q i, Rabs (w q i) <= Ab) -> sup_le (SSum w k -v SSum w (KT t a h)) (ms * kap)).
  { intros w Hw. rewrite <- stage_sum_sub. eapply sup_mono; [apply (stage_sum_bound m s w _ Ab kap K0 A0); intros q i Hq Hi; split; [apply Hw|apply K1; assumption]|]. unfold ms. right. ring. }
  assert (KB : forall q i, (q < m)%nat -> (i < s)%nat -> sup_le (k q i -v KT t a h q i) (L * (eps + h * (ms * kap)) + D * h ^ p)).
  { intros q i Hq Hi. rewrite (KE q i Hq Hi). specialize (HDD _ h (dS q i Hq Hi)). cbn [pt pa pi pq] in HDD. specialize (HNN _ h (dS q i Hq Hi)). cbn [pt pa pi pq] in HNN. rewrite pow_1 in HNN.
    eapply sup_trans; [|apply HDD; lra]. apply (lip q Hq); [apply (KU i Hi)| |].
    - apply HU; [exact Ht'|]. eapply sup_mono; [apply HNN; lra|exact Nh].
    - apply (sup_ext ((x -v y t) +v h *v (SSum (row a i) k -v SSum (row a i) (KT t a h)))); [intros c; unfold stage_sum, row; vunfold; ring|].
      apply sup_add; [exact Hx|]. pose proof (sup_scal _ _ h (SSb (row a i) ltac:(intros; apply Hc))) as Q. rewrite (Rabs_pos_eq h) in Q by lra. exact Q. }
  assert (KK : kap <= 2 * (L * eps + D * h ^ p)).
  { assert (0 <= L * eps) by (apply Rmult_le_pos; assumption). assert (0 <= D * h ^ p) by (apply Rmult_le_pos; lra).
    destruct K2 as [->|(q & i & c & Hq & Hi & E)]; [lra|]. pose proof (KB q i Hq Hi c) as B. rewrite E in B. assert (L * ms * h * kap <= 1 / 2 * kap) by (apply Rmult_le_compat_r; assumption). lra. }
  rewrite KX. specialize (HL t h a b delta Ht HT ltac:(lra) d0 Hc oc).
  apply (sup_ext (((x -v y t) +v h *v (SSum b k -v SSum b (KT t a h))) -v (y (t + h) -v (y t +v h *v SSum b (KT t a h))))); [intros c; unfold stage_sum; vunfold; ring|].
  pose proof (sup_scal _ _ h (SSb b Hb)) as Q. rewrite (Rabs_pos_eq h) in Q by lra.
  eapply sup_mono; [apply sup_sub; [apply sup_add; [exact Hx|exact Q]|exact HL]|].
  assert (h * (ms * kap) <= h * (ms * (2 * (L * eps + D * h ^ p)))) by (apply Rmult_le_compat_l; [lra|]; apply Rmult_le_compat_l; assumption).
  assert (0 <= 2 * (ms * D) * h * delta) by (apply Rmult_le_pos; [apply Rmult_le_pos|]; lra).
  apply (Rle_trans _ (eps + h * (ms * (2 * (L * eps + D * h ^ p))) + C * (h * (h ^ p + delta)))); [lra|].
  replace ((1 + 2 * (ms * L) * h) * eps + (2 * (ms * D) + C) * h * (h ^ p + delta)) with (eps + h * (ms * (2 * (L * eps + D * h ^ p))) + C * (h * (h ^ p + delta)) + 2 * (ms * D) * h * delta) by ring. lra.
Qed.

Lemma exp_ge1 x : 0 <= x -> 1 + x <= exp x.
Proof. intros [Q|<-]; [left; apply exp_ineq1; lra|rewrite exp_0; lra]. Qed.
Lemma gronwall (C1 C2 e0 eta : R) (h E : nat -> R) n : 0 <= C1 -> 0 <= C2 -> 0 <= e0 -> 0 <= eta -> E 0%nat = e0 -> (forall k, (k < n)%nat -> 0 <= h k) -> (forall k, (k < n)%nat -> 0 <= E (S k) <= (1 + C1 * h k) * E k + C2 * h k * eta) ->
  0 <= rsum n h /\ 0 <= E n <= exp (C1 * rsum n h) * (e0 + rsum n h * C2 * eta).
Proof.
  intros H1 H2 He Hn HE. induction n as [|n IH]; intros Hh HS.
  - rewrite HE. cbn [rsum]. rewrite Rmult_0_r, exp_0. split; [lra|]. split; [exact He|]. right. ring.
  - destruct (IH ltac:(intros; apply Hh; lia) ltac:(intros; apply HS; lia)) as [S0 [E0 EB]]. specialize (Hh n ltac:(lia)). destruct (HS n ltac:(lia)) as [G0 GB]. cbn [rsum]. split; [lra|]. split; [exact G0|]. eapply Rle_trans; [exact GB|].
    assert (P : 0 <= C2 * h n * eta) by (repeat apply Rmult_le_pos; assumption). assert (Q : 0 <= C1 * h n) by (apply Rmult_le_pos; assumption).
    replace (C1 * (rsum n h + h n)) with (C1 * h n + C1 * rsum n h) by ring. rewrite exp_plus.
    assert (N0 : 0 <= C1 * rsum n h) by (repeat apply Rmult_le_pos; assumption).
    pose proof (exp_ge1 _ Q) as G1. assert (G2 : 1 <= exp (C1 * rsum n h)) by (pose proof (exp_ge1 _ N0); lra).
    set (X := exp (C1 * h n)) in *. set (Y := exp (C1 * rsum n h)) in *. set (S0' := rsum n h) in *.
    assert (Z : 0 <= e0 + S0' * C2 * eta) by (assert (0 <= S0' * C2 * eta) by (repeat apply Rmult_le_pos; assumption); lra).
    assert (W : 1 <= X * Y) by (rewrite <- (Rmult_1_r 1); apply Rmult_le_compat; lra).
    assert (A : (1 + C1 * h n) * E n <= X * (Y * (e0 + S0' * C2 * eta))) by (apply Rmult_le_compat; lra).
    assert (B : 1 * (C2 * h n * eta) <= X * Y * (C2 * h n * eta)) by (apply Rmult_le_compat_r; assumption). lra.
Qed.
Lemma rsum_mono n k (h : nat -> R) : (forall j, (j < n)%nat -> 0 < h j) -> (k <= n)%nat -> 0 <= rsum k h <= rsum n h.
Proof.
  intros H. induction n as [|n IH]; intros Hk; [replace k with 0%nat by lia; cbn; lra|]. assert (0 < h n) by (apply H; lia).
  destruct (Nat.eq_dec k (S n)) as [->|]; [destruct (Nat.eq_dec n 0) as [->|]; [cbn [rsum]; lra|]; specialize (IH ltac:(intros; apply H; lia)); cbn [rsum]; assert (0 <= rsum n h)|].
  - clear - H. assert (G : forall q, (q <= S n)%nat -> 0 <= rsum q h) by (induction q as [|q IHq]; intros Hq; cbn [rsum]; [lra|]; specialize (IHq ltac:(lia)); specialize (H q ltac:(lia)); lra). apply G. lia.
  - lra.
  - specialize (IH ltac:(intros; apply H; lia) ltac:(lia)). cbn [rsum]. lra.
Qed.
Lemma converges : exists C h0, 0 <= C /\ 0 < h0 /\ forall a b delta (h : nat -> R) hm n (x : nat -> vec I) e0, coefficients_at_most a b Ab -> 0 <= delta -> ark_order m s a b p delta ->
  0 < hm <= h0 -> (forall k, (k < n)%nat -> 0 < h k <= hm) -> t0 + rsum n h <= T -> (forall k, (k < n)%nat -> ark_step m s a b F U (h k) (x k) (x (S k))) -> 0 <= e0 -> sup_le (x 0%nat -v y t0) e0 ->
  sup_le (x n -v y (t0 + rsum n h)) (C * (e0 + hm ^ p + delta)).
Proof.
  destruct one_step as (C1 & C2 & h0 & H1 & H2 & H0 & ST). set (W := Rmax 0 (T - t0)). assert (W0 : 0 <= W) by apply Rmax_l.
  assert (WC : 0 <= W * C2) by (apply Rmult_le_pos; assumption).
  exists (exp (C1 * W) * (1 + W * C2)), h0. split; [apply Rmult_le_pos; [left; apply exp_pos|lra]|]. split; [exact H0|].
  intros a b delta h hm n x e0 Hc d0 oc Hm Hh HT Hst E0 Hx.
  assert (hp : 0 < hm ^ p) by (apply pow_lt; lra). set (eta := hm ^ p + delta). assert (et : 0 <= eta) by (unfold eta; lra).
  set (E := fix E (k : nat) : R := match k with O => e0 | S k => (1 + C1 * h k) * E k + C2 * h k * eta end).
  assert (E0' : forall k, (k <= n)%nat -> 0 <= E k).
  { induction k as [|k IH]; intros Hk; cbn [E]; [exact E0|]. fold E. specialize (IH ltac:(lia)). specialize (Hh k ltac:(lia)). assert (0 <= C1 * h k) by (apply Rmult_le_pos; lra).
    assert (0 <= (1 + C1 * h k) * E k) by (apply Rmult_le_pos; lra). assert (0 <= C2 * h k * eta) by (apply Rmult_le_pos; [apply Rmult_le_pos|]; lra). lra. }
  assert (GR : 0 <= rsum n h /\ 0 <= E n <= exp (C1 * rsum n h) * (e0 + rsum n h * C2 * eta)).
  { apply gronwall; try assumption; [reflexivity|intros k Hk; specialize (Hh k Hk); lra|]. intros k Hk. split; [apply E0'; lia|]. right. reflexivity. }
  assert (IND : forall k, (k <= n)%nat -> sup_le (x k -v y (t0 + rsum k h)) (E k)).
  { induction k as [|k IH]; intros Hk; [cbn [rsum E]; rewrite Rplus_0_r; exact Hx|]. specialize (IH ltac:(lia)). pose proof (Hh k ltac:(lia)) as Hk'.
    destruct (rsum_mono n k h ltac:(intros j Hj; specialize (Hh j Hj); lra) ltac:(lia)) as [M1 _]. destruct (rsum_mono n (S k) h ltac:(intros j Hj; specialize (Hh j Hj); lra) Hk) as [_ M2]. cbn [rsum] in *.
    replace (t0 + (rsum k h + h k)) with ((t0 + rsum k h) + h k) by ring. cbn [E]. fold E.
    eapply sup_mono; [apply (ST (t0 + rsum k h) (h k) a b delta (E k) (x k) (x (S k))); try assumption; try lra; [apply E0'; lia|]; apply Hst; lia|].
    apply Rplus_le_compat_l. apply Rmult_le_compat_l; [apply Rmult_le_pos; lra|]. unfold eta. apply Rplus_le_compat_r. apply pow_incr. lra. }
  eapply sup_mono; [apply (IND n (Nat.le_refl n))|]. destruct GR as [S0 [_ GB]]. eapply Rle_trans; [exact GB|].
  assert (nh : 0 <= rsum n h <= W). { split; [exact S0|]. unfold W. eapply Rle_trans; [|apply Rmax_r]. lra. }
  replace (exp (C1 * W) * (1 + W * C2) * (e0 + hm ^ p + delta)) with (exp (C1 * W) * ((1 + W * C2) * (e0 + eta))) by (unfold eta; ring).
  assert (EX : exp (C1 * rsum n h) <= exp (C1 * W)). { assert (V : C1 * rsum n h <= C1 * W) by (apply Rmult_le_compat_l; lra). destruct V as [V|V]; [left; apply exp_increasing; exact V|rewrite V; lra]. }
  assert (A : rsum n h * (C2 * eta) <= W * (C2 * eta)) by (apply Rmult_le_compat_r; [apply Rmult_le_pos; assumption|lra]).
  assert (A' : 0 <= rsum n h * (C2 * eta)) by (apply Rmult_le_pos; [lra|apply Rmult_le_pos; assumption]).
  assert (0 <= W * C2 * e0) by (apply Rmult_le_pos; assumption).
  apply Rmult_le_compat; [left; apply exp_pos|lra|exact EX|]. lra.
Qed.

(** ** Explicit methods: the stage values stay in U by themselves *)
Definition no_implicit (a : nat -> nat -> nat -> R) : Prop := forall q i j, (i <= j)%nat -> a q i j = 0.
Lemma explicit_stays : exists e1 h0, 0 < e1 /\ 0 < h0 /\ forall t h a b x x', t0 <= t <= T -> 0 < h <= h0 -> no_implicit a -> coefficients_at_most a b Ab -> sup_le (x -v y t) e1 ->
  ark_step m s a b F (fun _ => True) h x x' -> ark_step m s a b F U h x x'.
Proof.
  destruct nb as (rho & Hrho & HU).
  set (ms := INR m * (INR s * Ab)). assert (ms0 : 0 <= ms) by (pose proof (pos_INR m); pose proof (pos_INR s); unfold ms; repeat apply Rmult_le_pos; assumption).
  set (B := M + L * rho). assert (B0 : 0 <= B) by (unfold B; assert (0 <= L * rho) by (apply Rmult_le_pos; lra); lra). assert (mB : 0 <= ms * B) by (apply Rmult_le_pos; assumption).
  exists (rho / 2), (rho / (2 * (ms * B + 1))). split; [lra|]. split; [apply Rdiv_lt_0_compat; lra|].
  intros t h a b x x' Ht Hh Ha Hc Hx (k & _ & KE & KX).
  assert (HB : h * (ms * B) <= rho / 2).
  { apply (Rle_trans _ ((rho / (2 * (ms * B + 1))) * (ms * B))); [apply Rmult_le_compat_r; lra|]. apply (Rmult_le_reg_r (2 * (ms * B + 1))); [lra|]. field_simplify; [|lra]. assert (0 <= rho * (ms * B)) by (apply Rmult_le_pos; lra). lra. }
  assert (IND : forall i, (i < s)%nat -> U (x +v h *v SSum (row a i) k) /\ forall q, (q < m)%nat -> sup_le (k q i) B).
  { induction i as [i IH] using lt_wf_ind. intros Hi.
    assert (V : sup_le ((x +v h *v SSum (row a i) k) -v y t) rho).
    { apply (sup_ext ((x -v y t) +v h *v SSum (row a i) k)); [intros c; vunfold; ring|]. replace rho with (rho / 2 + rho / 2) by lra. apply sup_add; [exact Hx|].
      assert (Q : sup_le (SSum (row a i) k) (ms * B)).
      { eapply sup_mono; [apply (sup_vsum m _ (INR s * (Ab * B)))|unfold ms; right; ring]. intros q Hq. apply sup_vsum. intros j Hj. destruct (Nat.lt_ge_cases j i) as [Hj'|Hj'].
        - apply sup_le_scal; [apply Hc|exact B0|]. apply IH; assumption.
        - unfold row. rewrite (Ha q i j Hj'). apply (sup_ext vzero); [intros c; vunfold; ring|]. apply sup_zero. apply Rmult_le_pos; assumption. }
      pose proof (sup_scal _ _ h Q) as Q'. rewrite (Rabs_pos_eq h) in Q' by lra. eapply sup_mono; [exact Q'|exact HB]. }
    assert (UU : U (x +v h *v SSum (row a i) k)).
    { replace (x +v h *v SSum (row a i) k) with (y t +v ((x +v h *v SSum (row a i) k) -v y t)) by vring. apply HU; assumption. }
    split; [exact UU|]. intros q Hq. rewrite (KE q i Hq Hi).
    assert (Uy : U (y t)) by (replace (y t) with (y t +v vzero) by vring; apply HU; [exact Ht|apply sup_zero; lra]).
    apply (sup_ext (F q (y t) +v (F q (x +v h *v SSum (row a i) k) -v F q (y t)))); [intros c; unfold stage_sum, row; vunfold; ring|].
    apply sup_add; [apply (at_y p m F y t0 T D1 D2 D3 M r sm q t Hq Ht)|]. apply (lip q Hq); assumption. }
  exists k. split; [intros i Hi; apply (IND i Hi)|]. split; assumption.
Qed.
Lemma explicit_converges : exists C h0 e1, 0 <= C /\ 0 < h0 /\ 0 < e1 /\ forall a b delta (h : nat -> R) hm n (x : nat -> vec I) e0, coefficients_at_most a b Ab -> 0 <= delta <= e1 -> ark_order m s a b p delta -> no_implicit a ->
  0 < hm <= h0 -> (forall k, (k < n)%nat -> 0 < h k <= hm) -> t0 + rsum n h <= T -> (forall k, (k < n)%nat -> ark_step m s a b F (fun _ => True) (h k) (x k) (x (S k))) -> 0 <= e0 <= e1 -> sup_le (x 0%nat -v y t0) e0 ->
  sup_le (x n -v y (t0 + rsum n h)) (C * (e0 + hm ^ p + delta)).
Proof.
  destruct converges as (C & h0 & HC & H0 & CV). destruct explicit_stays as (e1 & h1 & E1 & H1 & ES).
  assert (Q : 0 < e1 / (3 * (C + 1))) by (apply Rdiv_lt_0_compat; lra).
  exists C, (Rmin (Rmin h0 h1) (Rmin 1 (e1 / (3 * (C + 1))))), (e1 / (3 * (C + 1))). split; [exact HC|]. split; [repeat apply Rmin_pos; lra|]. split; [exact Q|].
  intros a b delta h hm n x e0 Hc Hd oc Ha [Hm0 Hm] Hh HT Hst He Hx.
  apply min_le in Hm. destruct Hm as [Hm Hm']. apply min_le in Hm. apply min_le in Hm'. destruct Hm as [L1 L2], Hm' as [L3 L4].
  assert (hp : hm ^ p <= e1 / (3 * (C + 1))).
  { eapply Rle_trans; [|exact L4]. destruct p as [|p']; [lia|]. cbn [pow]. rewrite <- (Rmult_1_r hm) at 3. apply Rmult_le_compat_l; [lra|]. rewrite <- (pow1 p'). apply pow_incr. lra. }
  assert (hp0 : 0 < hm ^ p) by (apply pow_lt; exact Hm0).
  assert (BD : C * (e0 + hm ^ p + delta) <= e1).
  { apply (Rle_trans _ (C * (3 * (e1 / (3 * (C + 1)))))); [apply Rmult_le_compat_l; lra|]. apply (Rmult_le_reg_r (C + 1)); [lra|]. field_simplify; lra. }
  assert (IND : forall k, (k <= n)%nat -> forall j, (j < k)%nat -> ark_step m s a b F U (h j) (x j) (x (S j))).
  { induction k as [|k IH]; intros Hk j Hj; [lia|]. destruct (Nat.eq_dec j k) as [->|]; [|apply IH; lia]. specialize (IH ltac:(lia)). pose proof (Hh k ltac:(lia)) as Hk'.
    destruct (rsum_mono n k h ltac:(intros i Hi; specialize (Hh i Hi); lra) ltac:(lia)) as [M1 M2].
    apply (ES (t0 + rsum k h) (h k) a b); try assumption; [lra|lra| |apply Hst; lia].
    eapply sup_mono; [apply (CV a b delta h hm k x e0); try assumption; try lra; intros i Hi; apply Hh; lia|exact BD]. }
  apply (CV a b delta h hm n x e0); try assumption; try lra. apply (IND n (Nat.le_refl n)).
Qed.
End Main.
