(** Facts about ConvergenceSpec.v: orders of magnitude, expansions of the right-hand side and of the exact solution. *)
From Verif Require Import Base Vec ConvergenceSpec.
Open Scope R_scope.

Section Sup.
Context {I : Type}.
Implicit Types (v w : vec I).
Lemma sup_ge0 v r (i : I) : sup_le v r -> 0 <= r.
Proof. intros H. eapply Rle_trans; [apply Rabs_pos|apply (H i)]. Qed.
Lemma sup_mono v r s : sup_le v r -> r <= s -> sup_le v s.
Proof. intros H L i. eapply Rle_trans; [apply H|exact L]. Qed.
Lemma sup_add v w r s : sup_le v r -> sup_le w s -> sup_le (v +v w) (r + s).
Proof. intros H K i. unfold vadd. eapply Rle_trans; [apply Rabs_triang|]. specialize (H i). specialize (K i). lra. Qed.
Lemma sup_scal v r a : sup_le v r -> sup_le (a *v v) (Rabs a * r).
Proof. intros H i. unfold vscal. rewrite Rabs_mult. apply Rmult_le_compat_l; [apply Rabs_pos|apply H]. Qed.
Lemma sup_sub v w r s : sup_le v r -> sup_le w s -> sup_le (v -v w) (r + s).
Proof. intros H K i. unfold vsub. unfold Rminus. eapply Rle_trans; [apply Rabs_triang|]. rewrite Rabs_Ropp. specialize (H i). specialize (K i). lra. Qed.
Lemma sup_zero r : 0 <= r -> sup_le (vzero : vec I) r.
Proof. intros H i. unfold vzero. rewrite Rabs_R0. exact H. Qed.
Lemma sup_vsum n (f : nat -> vec I) r : (forall k, (k < n)%nat -> sup_le (f k) r) -> sup_le (vsum n f) (INR n * r).
Proof.
  induction n as [|n IH]; intros H; cbn [vsum]; [apply sup_zero; cbn; lra|]. rewrite S_INR. replace ((INR n + 1) * r) with (INR n * r + r) by ring. apply sup_add; [apply IH; intros k Hk; apply H; lia|apply H; lia].
Qed.
Lemma sup_ext v w r : (forall i, v i = w i) -> sup_le v r -> sup_le w r.
Proof. intros E H i. rewrite <- E. apply H. Qed.
Lemma sup_flip v w r : sup_le (v -v w) r -> sup_le (w -v v) r.
Proof. intros H i. unfold vsub in *. rewrite Rabs_minus_sym. apply H. Qed.
Lemma sup_trans u v w r s : sup_le (u -v v) r -> sup_le (v -v w) s -> sup_le (u -v w) (r + s).
Proof. intros H K. apply (sup_ext ((u -v v) +v (v -v w))); [intros i; vunfold; ring|]. apply sup_add; assumption. Qed.
End Sup.

(** ** Orders of magnitude in h, uniform in a parameter *)
Section BigO.
Context {I P : Type} (dom : P -> R -> Prop).
Definition ord (k : nat) (f : P -> R -> vec I) : Prop := exists C h0, 0 < h0 /\ 0 <= C /\ forall p h, dom p h -> 0 < h <= h0 -> sup_le (f p h) (C * h ^ k).
Lemma O_ext k f g : (forall p h, dom p h -> 0 < h -> forall i, f p h i = g p h i) -> ord k f -> ord k g.
Proof. intros E (C & h0 & H0 & HC & H). exists C, h0. split; [exact H0|]. split; [exact HC|]. intros p h D Hh. apply (sup_ext (f p h)); [apply E; [exact D|lra]|apply H; assumption]. Qed.
Lemma O_add k f g : ord k f -> ord k g -> ord k (fun p h => f p h +v g p h).
Proof.
  intros (C & h0 & H0 & HC & H) (D & h1 & H1 & HD & K). exists (C + D), (Rmin h0 h1). split; [apply Rmin_pos; assumption|]. split; [lra|].
  intros p h X Hh. rewrite Rmult_plus_distr_r. assert (h <= h0) by (eapply Rle_trans; [apply Hh|apply Rmin_l]). assert (h <= h1) by (eapply Rle_trans; [apply Hh|apply Rmin_r]).
  apply sup_add; [apply H|apply K]; try exact X; lra.
Qed.
Lemma O_scal k a f : ord k f -> ord k (fun p h => a *v f p h).
Proof.
  intros (C & h0 & H0 & HC & H). exists (Rabs a * C), h0. split; [exact H0|]. split; [apply Rmult_le_pos; [apply Rabs_pos|exact HC]|].
  intros p h X Hh. rewrite Rmult_assoc. apply sup_scal. apply H; assumption.
Qed.
Lemma O_sub k f g : ord k f -> ord k g -> ord k (fun p h => f p h -v g p h).
Proof. intros H K. apply (O_ext k (fun p h => f p h +v (-1) *v g p h)); [intros; vunfold; ring|]. apply O_add; [exact H|apply O_scal; exact K]. Qed.
Lemma O_weak k l f : (l <= k)%nat -> ord k f -> ord l f.
Proof.
  intros L (C & h0 & H0 & HC & H). exists C, (Rmin h0 1). split; [apply Rmin_pos; lra|]. split; [exact HC|]. intros p h X Hh.
  assert (h <= h0) by (eapply Rle_trans; [apply Hh|apply Rmin_l]). assert (h <= 1) by (eapply Rle_trans; [apply Hh|apply Rmin_r]).
  eapply sup_mono; [apply H; [exact X|lra]|]. apply Rmult_le_compat_l; [exact HC|]. replace k with (l + (k - l))%nat by lia. rewrite pow_add. rewrite <- (Rmult_1_r (h ^ l)) at 2.
  apply Rmult_le_compat_l; [apply pow_le; lra|]. rewrite <- (pow1 (k - l)). apply pow_incr. lra.
Qed.
Lemma O_pow k j f : ord k f -> ord (j + k) (fun p h => (h ^ j) *v f p h).
Proof.
  intros (C & h0 & H0 & HC & H). exists C, h0. split; [exact H0|]. split; [exact HC|]. intros p h X Hh. rewrite pow_add. replace (C * (h ^ j * h ^ k)) with (Rabs (h ^ j) * (C * h ^ k)).
  - apply sup_scal. apply H; assumption.
  - rewrite Rabs_pos_eq by (apply pow_le; lra). ring.
Qed.
Lemma O_vsum n k (f : nat -> P -> R -> vec I) : (forall q, (q < n)%nat -> ord k (f q)) -> ord k (fun p h => vsum n (fun q => f q p h)).
Proof.
  induction n as [|n IH]; intros H; cbn [vsum].
  - exists 0, 1. split; [lra|]. split; [lra|]. intros. apply sup_zero. lra.
  - apply O_add; [apply IH; intros q Hq; apply H; lia|apply H; lia].
Qed.
Lemma O_zero k : ord k (fun _ _ => vzero).
Proof. exists 0, 1. split; [lra|]. split; [lra|]. intros. apply sup_zero. lra. Qed.

(** bounded multilinear maps, uniformly in the parameter *)
Variable M : R.
Hypothesis M0 : 0 <= M.
Lemma O_D1 k (D : P -> vec I -> vec I) f : (forall p h, dom p h -> bounded1 M (D p)) -> ord k f -> ord k (fun p h => D p (f p h)).
Proof.
  intros HD (C & h0 & H0 & HC & H). exists (M * C), h0. split; [exact H0|]. split; [apply Rmult_le_pos; assumption|]. intros p h X Hh. rewrite Rmult_assoc. apply (HD p h X). apply H; assumption.
Qed.
Lemma O_D2 k l (D : P -> vec I -> vec I -> vec I) f g : (forall p h, dom p h -> bounded2 M (D p)) -> ord k f -> ord l g -> ord (k + l) (fun p h => D p (f p h) (g p h)).
Proof.
  intros HD (C & h0 & H0 & HC & H) (C' & h1 & H1 & HC' & H'). exists (M * (C * C')), (Rmin h0 h1). split; [apply Rmin_pos; assumption|].
  split; [apply Rmult_le_pos; [exact M0|apply Rmult_le_pos; assumption]|]. intros p h X Hh.
  assert (h <= h0) by (eapply Rle_trans; [apply Hh|apply Rmin_l]). assert (h <= h1) by (eapply Rle_trans; [apply Hh|apply Rmin_r]).
  rewrite pow_add. replace (M * (C * C') * (h ^ k * h ^ l)) with (M * ((C * h ^ k) * (C' * h ^ l))) by ring. apply (HD p h X); [apply H|apply H']; try exact X; lra.
Qed.
Lemma O_D3 k l n (D : P -> vec I -> vec I -> vec I -> vec I) f g e : (forall p h, dom p h -> bounded3 M (D p)) -> ord k f -> ord l g -> ord n e -> ord (k + (l + n)) (fun p h => D p (f p h) (g p h) (e p h)).
Proof.
  intros HD (C & h0 & H0 & HC & H) (C' & h1 & H1 & HC' & H') (C'' & h2 & H2 & HC'' & H''). exists (M * (C * (C' * C''))), (Rmin h0 (Rmin h1 h2)).
  split; [apply Rmin_pos; [assumption|apply Rmin_pos; assumption]|].
  split; [apply Rmult_le_pos; [exact M0|repeat apply Rmult_le_pos; assumption]|]. intros p h X Hh.
  assert (h <= h0) by (eapply Rle_trans; [apply Hh|apply Rmin_l]). assert (h12 : h <= Rmin h1 h2) by (eapply Rle_trans; [apply Hh|apply Rmin_r]).
  assert (h <= h1) by (eapply Rle_trans; [exact h12|apply Rmin_l]). assert (h <= h2) by (eapply Rle_trans; [exact h12|apply Rmin_r]).
  rewrite !pow_add. replace (M * (C * (C' * C'')) * (h ^ k * (h ^ l * h ^ n))) with (M * ((C * h ^ k) * ((C' * h ^ l) * (C'' * h ^ n)))) by ring.
  apply (HD p h X); [apply H|apply H'|apply H'']; try exact X; lra.
Qed.
End BigO.

(** ** The right-hand side at a point with an expansion *)
Section Expand.
Context {I P : Type} (dom : P -> R -> Prop).
Variables (p : nat) (F : P -> vec I -> vec I) (x : P -> vec I) (D1 : P -> vec I -> vec I) (D2 : P -> vec I -> vec I -> vec I) (D3 : P -> vec I -> vec I -> vec I -> vec I) (M r : R).
Hypothesis p4 : (1 <= p <= 4)%nat.
Hypothesis r0 : 0 < r.
Hypothesis M0 : 0 <= M.
Hypothesis B1 : forall z h, dom z h -> bounded1 M (D1 z).
Hypothesis B2 : forall z h, dom z h -> bounded2 M (D2 z).
Hypothesis B3 : forall z h, dom z h -> bounded3 M (D3 z).
Hypothesis rem : forall z h v rho, dom z h -> sup_le v rho -> rho <= r -> sup_le (F z (x z +v v) -v taylor p (F z (x z)) (D1 z) (D2 z) (D3 z) v) (M * rho ^ p).
Variables a1 a2 a3 : P -> vec I.
Hypothesis b1 : ord dom 0 (fun z _ => a1 z).
Hypothesis b2 : ord dom 0 (fun z _ => a2 z).
Hypothesis b3 : ord dom 0 (fun z _ => a3 z).
Definition series (z : P) (h : R) : vec I := h *v a1 z +v h ^ 2 *v a2 z +v h ^ 3 *v a3 z.
Definition c1 z := D1 z (a1 z).
Definition c2 z := D1 z (a2 z) +v (1/2) *v D2 z (a1 z) (a1 z).
Definition c3 z := D1 z (a3 z) +v (1/2) *v (D2 z (a1 z) (a2 z) +v D2 z (a2 z) (a1 z)) +v (1/6) *v D3 z (a1 z) (a1 z) (a1 z).

Lemma O1 (f : P -> vec I) : ord dom 0 (fun z _ => f z) -> ord dom 1 (fun z h => h *v f z).
Proof. intros H. apply (O_ext dom 1 (fun z h => h ^ 1 *v f z)); [intros; vunfold; ring|]. apply (O_pow dom 0 1 (fun z _ => f z) H). Qed.
Lemma series_O1 : ord dom 1 series.
Proof.
  unfold series. apply O_add; [apply O_add|]; [apply O1; exact b1|apply (O_weak dom 2); [lia|apply (O_pow dom 0 2 (fun z _ => a2 z) b2)]|apply (O_weak dom 3); [lia|apply (O_pow dom 0 3 (fun z _ => a3 z) b3)]].
Qed.
Definition tail2 (z : P) (h : R) : vec I := h ^ 2 *v a2 z +v h ^ 3 *v a3 z.
Lemma tail2_O : ord dom 2 tail2.
Proof. unfold tail2. apply O_add; [apply (O_pow dom 0 2 (fun z _ => a2 z) b2)|apply (O_weak dom 3); [lia|apply (O_pow dom 0 3 (fun z _ => a3 z) b3)]]. Qed.

Lemma expand l v : (1 <= l <= p)%nat -> ord dom l (fun z h => v z h -v series z h) ->
  ord dom l (fun z h => F z (x z +v v z h) -v (F z (x z) +v h *v c1 z +v h ^ 2 *v c2 z +v h ^ 3 *v c3 z)).
Proof.
  intros Hl Hv. set (w := fun z h => v z h -v series z h) in *.
  assert (V1 : ord dom 1 v). { apply (O_ext dom 1 (fun z h => w z h +v series z h)); [intros; unfold w; vunfold; ring|]. apply O_add; [apply (O_weak dom l); [lia|exact Hv]|exact series_O1]. }
  (* remainder *)
  assert (R1 : ord dom l (fun z h => F z (x z +v v z h) -v taylor p (F z (x z)) (D1 z) (D2 z) (D3 z) (v z h))).
  { apply (O_weak dom p); [lia|]. destruct V1 as (C & h0 & H0 & HC & H). exists (M * C ^ p), (Rmin h0 (r / (C + 1))).
    assert (0 < r / (C + 1)) by (apply Rdiv_lt_0_compat; lra).
    split; [apply Rmin_pos; assumption|]. split; [apply Rmult_le_pos; [exact M0|apply pow_le; exact HC]|]. intros z h X Hh.
    assert (h <= h0) by (eapply Rle_trans; [apply Hh|apply Rmin_l]). assert (hr : h <= r / (C + 1)) by (eapply Rle_trans; [apply Hh|apply Rmin_r]).
    rewrite Rmult_assoc, <- Rpow_mult_distr. apply (rem z h); [exact X| |].
    - eapply sup_mono; [apply H; [exact X|lra]|]. rewrite pow_1. lra.
    - apply (Rle_trans _ ((C + 1) * h)); [apply Rmult_le_compat_r; lra|]. apply (Rmult_le_compat_l (C + 1)) in hr; [|lra]. replace ((C + 1) * (r / (C + 1))) with r in hr by (field; lra). exact hr. }
  assert (R2 : ord dom l (fun z h => taylor p (F z (x z)) (D1 z) (D2 z) (D3 z) (v z h) -v taylor 4 (F z (x z)) (D1 z) (D2 z) (D3 z) (v z h))).
  { unfold taylor. change (Nat.leb 2 4) with true. change (Nat.leb 3 4) with true. change (Nat.leb 4 4) with true. cbv iota.
    apply (O_ext dom l (fun z h => ((if Nat.leb 2 p then vzero else (-1) *v D1 z (v z h)) +v (if Nat.leb 3 p then vzero else (-1/2) *v D2 z (v z h) (v z h))) +v (if Nat.leb 4 p then vzero else (-1/6) *v D3 z (v z h) (v z h) (v z h)))).
    { intros z h _ _ i. destruct (Nat.leb 2 p), (Nat.leb 3 p), (Nat.leb 4 p); vunfold; field. }
    apply O_add; [apply O_add|].
    - destruct (Nat.leb_spec 2 p); [apply O_zero|]. apply O_scal. apply (O_weak dom 1); [lia|]. apply (O_D1 dom M M0); [exact B1|exact V1].
    - destruct (Nat.leb_spec 3 p); [apply O_zero|]. apply O_scal. apply (O_weak dom (1 + 1)); [lia|]. apply (O_D2 dom M M0 1 1 D2); [exact B2|exact V1|exact V1].
    - destruct (Nat.leb_spec 4 p); [apply O_zero|]. apply O_scal. apply (O_weak dom (1 + (1 + 1))); [lia|]. apply (O_D3 dom M M0 1 1 1 D3); [exact B3|exact V1|exact V1|exact V1]. }
  (* D1 *)
  assert (S1 : ord dom l (fun z h => D1 z (v z h) -v (h *v D1 z (a1 z) +v h ^ 2 *v D1 z (a2 z) +v h ^ 3 *v D1 z (a3 z)))).
  { apply (O_ext dom l (fun z h => D1 z (w z h))); [|apply (O_D1 dom M M0); [exact B1|exact Hv]]. intros z h X _ i. destruct (B1 z h X) as [Lin _]. unfold w. rewrite (linear_op_sub (D1 z)) by exact Lin.
    unfold series. rewrite !(proj1 Lin), !(proj2 Lin). vunfold. ring. }
  (* D2 *)
  assert (S2 : ord dom l (fun z h => D2 z (v z h) (v z h) -v (h ^ 2 *v D2 z (a1 z) (a1 z) +v h ^ 3 *v (D2 z (a1 z) (a2 z) +v D2 z (a2 z) (a1 z))))).
  { apply (O_ext dom l (fun z h => (D2 z (w z h) (v z h) +v D2 z (series z h) (w z h)) +v (h ^ 4 *v (D2 z (a1 z) (a3 z) +v D2 z (a3 z) (a1 z)) +v D2 z (tail2 z h) (tail2 z h)))).
    - intros z h X _ i. destruct (B2 z h X) as (LR & LL & _).
      assert (AR : forall u e g, D2 z u (e +v g) = D2 z u e +v D2 z u g) by (intros u; apply (LR u)). assert (SR : forall u c e, D2 z u (c *v e) = c *v D2 z u e) by (intros u; apply (LR u)).
      assert (AL : forall u e g, D2 z (e +v g) u = D2 z e u +v D2 z g u) by (intros u; apply (LL u)). assert (SL : forall u c e, D2 z (c *v e) u = c *v D2 z e u) by (intros u; apply (LL u)).
      unfold w. rewrite (linear_op_sub (D2 z (series z h))) by apply LR.
      assert (E : D2 z (v z h -v series z h) (v z h) = D2 z (v z h) (v z h) -v D2 z (series z h) (v z h)) by (apply (linear_op_sub (fun u => D2 z u (v z h))); apply LL). rewrite E.
      unfold series, tail2. repeat (rewrite ?AR, ?AL, ?SR, ?SL). vunfold. ring.
    - assert (A13 : ord dom (0 + 0) (fun z h => D2 z (a1 z) (a3 z))) by (apply (O_D2 dom M M0 0 0 D2); [exact B2|exact b1|exact b3]).
      assert (A31 : ord dom (0 + 0) (fun z h => D2 z (a3 z) (a1 z))) by (apply (O_D2 dom M M0 0 0 D2); [exact B2|exact b3|exact b1]).
      apply O_add; [apply O_add|apply O_add].
      + apply (O_weak dom (l + 1)); [lia|]. apply (O_D2 dom M M0 l 1 D2); [exact B2|exact Hv|exact V1].
      + apply (O_weak dom (1 + l)); [lia|]. apply (O_D2 dom M M0 1 l D2); [exact B2|exact series_O1|exact Hv].
      + apply (O_weak dom (4 + 0)); [lia|]. apply (O_pow dom 0 4 (fun z _ => D2 z (a1 z) (a3 z) +v D2 z (a3 z) (a1 z))). apply O_add; [exact A13|exact A31].
      + apply (O_weak dom (2 + 2)); [lia|]. apply (O_D2 dom M M0 2 2 D2); [exact B2|exact tail2_O|exact tail2_O]. }
  (* D3 *)
  assert (S3 : ord dom l (fun z h => D3 z (v z h) (v z h) (v z h) -v h ^ 3 *v D3 z (a1 z) (a1 z) (a1 z))).
  { set (g := fun z h => h *v a1 z).
    assert (G1 : ord dom 1 g) by (apply O1; exact b1).
    apply (O_ext dom l (fun z h => ((D3 z (w z h) (v z h) (v z h) +v D3 z (series z h) (w z h) (v z h)) +v D3 z (series z h) (series z h) (w z h))
        +v ((D3 z (tail2 z h) (series z h) (series z h) +v D3 z (g z h) (tail2 z h) (series z h)) +v D3 z (g z h) (g z h) (tail2 z h)))).
    - intros z h X _ i. destruct (B3 z h X) as (L1 & L2 & L3 & _).
      assert (E1 : forall e e' u u', D3 z (e -v e') u u' = D3 z e u u' -v D3 z e' u u') by (intros e e' u u'; apply (linear_op_sub (fun q => D3 z q u u')); apply L3).
      assert (E2 : forall e e' u u', D3 z u (e -v e') u' = D3 z u e u' -v D3 z u e' u') by (intros e e' u u'; apply (linear_op_sub (fun q => D3 z u q u')); apply L2).
      assert (E3 : forall e e' u u', D3 z u u' (e -v e') = D3 z u u' e -v D3 z u u' e') by (intros e e' u u'; apply (linear_op_sub (fun q => D3 z u u' q)); apply L1).
      assert (T : forall z h, tail2 z h = series z h -v g z h) by (intros; unfold tail2, series, g; vring).
      rewrite (T z h). unfold w. rewrite !E1, !E2, !E3.
      assert (G : D3 z (g z h) (g z h) (g z h) = h ^ 3 *v D3 z (a1 z) (a1 z) (a1 z)).
      { unfold g. rewrite (proj2 (L1 _ _)). pose proof (proj2 (L2 (h *v a1 z) (a1 z)) h (a1 z)) as Q. cbv beta in Q. rewrite Q. pose proof (proj2 (L3 (a1 z) (a1 z)) h (a1 z)) as Q'. cbv beta in Q'. rewrite Q'. vring. }
      rewrite G. vunfold. ring.
    - pose proof series_O1 as SS. pose proof tail2_O as TT.
      repeat apply O_add.
      + apply (O_weak dom (l + (1 + 1))); [lia|]. apply (O_D3 dom M M0 l 1 1 D3); [exact B3|exact Hv|exact V1|exact V1].
      + apply (O_weak dom (1 + (l + 1))); [lia|]. apply (O_D3 dom M M0 1 l 1 D3); [exact B3|exact SS|exact Hv|exact V1].
      + apply (O_weak dom (1 + (1 + l))); [lia|]. apply (O_D3 dom M M0 1 1 l D3); [exact B3|exact SS|exact SS|exact Hv].
      + apply (O_weak dom (2 + (1 + 1))); [lia|]. apply (O_D3 dom M M0 2 1 1 D3); [exact B3|exact TT|exact SS|exact SS].
      + apply (O_weak dom (1 + (2 + 1))); [lia|]. apply (O_D3 dom M M0 1 2 1 D3); [exact B3|exact G1|exact TT|exact SS].
      + apply (O_weak dom (1 + (1 + 2))); [lia|]. apply (O_D3 dom M M0 1 1 2 D3); [exact B3|exact G1|exact G1|exact TT]. }
  apply (O_ext dom l (fun z h => (F z (x z +v v z h) -v taylor p (F z (x z)) (D1 z) (D2 z) (D3 z) (v z h)) +v
     ((taylor p (F z (x z)) (D1 z) (D2 z) (D3 z) (v z h) -v taylor 4 (F z (x z)) (D1 z) (D2 z) (D3 z) (v z h)) +v
      ((D1 z (v z h) -v (h *v D1 z (a1 z) +v h ^ 2 *v D1 z (a2 z) +v h ^ 3 *v D1 z (a3 z))) +v
       ((1/2) *v (D2 z (v z h) (v z h) -v (h ^ 2 *v D2 z (a1 z) (a1 z) +v h ^ 3 *v (D2 z (a1 z) (a2 z) +v D2 z (a2 z) (a1 z)))) +v
        (1/6) *v (D3 z (v z h) (v z h) (v z h) -v h ^ 3 *v D3 z (a1 z) (a1 z) (a1 z))))))).
  - intros z h _ _ i. unfold c1, c2, c3. generalize (taylor p (F z (x z)) (D1 z) (D2 z) (D3 z) (v z h)). intros tp. unfold taylor. change (Nat.leb 2 4) with true. change (Nat.leb 3 4) with true. change (Nat.leb 4 4) with true. cbv iota. vunfold. field.
  - apply O_add; [exact R1|]. apply O_add; [exact R2|]. apply O_add; [exact S1|]. apply O_add; apply O_scal; assumption.
Qed.
End Expand.
