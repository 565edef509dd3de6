(** The expansion of the exact solution, and approximate stage values that satisfy the stage equations up to O(h^p).  Used in ConvergenceProps.v. *)
From Verif Require Import Base Vec ConvergenceSpec ConvergenceFacts.
Open Scope R_scope.

(** derivatives for all parts with common bounds *)
(** Auxiliary, nothing in the code by itself. *)
Definition all_smooth {I} (p m : nat) (F : nat -> vec I -> vec I) (S : vec I -> Prop)
  (D1 : nat -> vec I -> vec I -> vec I) (D2 : nat -> vec I -> vec I -> vec I -> vec I) (D3 : nat -> vec I -> vec I -> vec I -> vec I -> vec I) (M r : R) : Prop :=
  forall q x, (q < m)%nat -> S x -> sup_le (F q x) M /\ bounded1 M (D1 q x) /\ bounded2 M (D2 q x) /\ bounded3 M (D3 q x) /\
  forall v rho, sup_le v rho -> rho <= r -> sup_le (F q (x +v v) -v taylor p (F q x) (D1 q x) (D2 q x) (D3 q x) v) (M * rho ^ p).
Section Mono.
Context {I : Type}.
Lemma bounded1_mono M N (D : vec I -> vec I) : M <= N -> bounded1 M D -> bounded1 N D.
Proof. intros L [A B]. split; [exact A|]. intros v r H i. eapply Rle_trans; [apply (B v r H)|]. apply Rmult_le_compat_r; [apply (sup_ge0 v r i H)|exact L]. Qed.
Lemma bounded2_mono M N (D : vec I -> vec I -> vec I) : M <= N -> bounded2 M D -> bounded2 N D.
Proof.
  intros L (A & B & C). split; [exact A|]. split; [exact B|]. intros v w r s H K i. eapply Rle_trans; [apply (C v w r s H K)|]. apply Rmult_le_compat_r; [|exact L].
  apply Rmult_le_pos; [apply (sup_ge0 v r i H)|apply (sup_ge0 w s i K)].
Qed.
Lemma bounded3_mono M N (D : vec I -> vec I -> vec I -> vec I) : M <= N -> bounded3 M D -> bounded3 N D.
Proof.
  intros L (A & B & C & E). split; [exact A|]. split; [exact B|]. split; [exact C|]. intros u v w r s t H K J i. eapply Rle_trans; [apply (E u v w r s t H K J)|]. apply Rmult_le_compat_r; [|exact L].
  apply Rmult_le_pos; [apply (sup_ge0 u r i H)|]. apply Rmult_le_pos; [apply (sup_ge0 v s i K)|apply (sup_ge0 w t i J)].
Qed.
Lemma smooth_all p m (F : nat -> vec I -> vec I) S : (forall q, (q < m)%nat -> smooth p (F q) S) ->
  exists D1 D2 D3 M r, 0 < r /\ 0 <= M /\ all_smooth p m F S D1 D2 D3 M r.
Proof.
  induction m as [|m IH]; intros H.
  - exists (fun _ _ v => v), (fun _ _ v _ => v), (fun _ _ v _ _ => v), 0, 1. split; [lra|]. split; [lra|]. intros q x Hq. lia.
  - destruct IH as (D1 & D2 & D3 & M & r & Hr & HM & HA); [intros q Hq; apply H; lia|]. destruct (H m ltac:(lia)) as (E1 & E2 & E3 & N & r' & Hr' & HN & HB).
    exists (fun q => if Nat.eqb q m then E1 else D1 q), (fun q => if Nat.eqb q m then E2 else D2 q), (fun q => if Nat.eqb q m then E3 else D3 q), (Rmax M N), (Rmin r r').
    assert (M <= Rmax M N) by apply Rmax_l. assert (N <= Rmax M N) by apply Rmax_r.
    split; [apply Rmin_pos; assumption|]. split; [lra|]. intros q x Hq Hx.
    assert (MM : forall K (v : vec I) rho (Z : vec I), K <= Rmax M N -> 0 <= K -> sup_le v rho -> sup_le Z (K * rho ^ p) -> sup_le Z (Rmax M N * rho ^ p)).
    { intros K v rho Z HK HK0 Hv HZ i. eapply Rle_trans; [apply HZ|]. apply Rmult_le_compat_r; [apply pow_le; apply (sup_ge0 v rho i Hv)|exact HK]. }
    destruct (Nat.eqb_spec q m) as [->|E].
    + destruct (HB x Hx) as (A & B & C & D & G). split; [apply (sup_mono _ N); assumption|]. split; [apply (bounded1_mono N); assumption|]. split; [apply (bounded2_mono N); assumption|].
      split; [apply (bounded3_mono N); assumption|]. intros v rho Hv Hrho. apply (MM N v rho); [assumption|exact HN|exact Hv|]. apply G; [exact Hv|]. eapply Rle_trans; [exact Hrho|apply Rmin_r].
    + destruct (HA q x ltac:(lia) Hx) as (A & B & C & D & G). split; [apply (sup_mono _ M); assumption|]. split; [apply (bounded1_mono M); assumption|]. split; [apply (bounded2_mono M); assumption|].
      split; [apply (bounded3_mono M); assumption|]. intros v rho Hv Hrho. apply (MM M v rho); [assumption|exact HM|exact Hv|]. apply G; [exact Hv|]. eapply Rle_trans; [exact Hrho|apply Rmin_l].
Qed.
End Mono.

Section Exact.
Context {I : Type}.
Variables (p m : nat) (F : nat -> vec I -> vec I) (y : R -> vec I) (t0 T : R).
Variables (D1 : nat -> vec I -> vec I -> vec I) (D2 : nat -> vec I -> vec I -> vec I -> vec I) (D3 : nat -> vec I -> vec I -> vec I -> vec I -> vec I) (M r : R).
Hypothesis p4 : (1 <= p <= 4)%nat.
Hypothesis r0 : 0 < r.
Hypothesis M0 : 0 <= M.
Hypothesis sm : all_smooth p m F (along y t0 T) D1 D2 D3 M r.
Hypothesis sol : solves m F y t0 T.

(** Auxiliary, nothing in the code by itself. *)
Definition ff (q : nat) (t : R) : vec I := F q (y t).
(** Auxiliary, nothing in the code by itself. *)
Definition k1 q t (s0 : vec I) := D1 q (y t) s0.
(** Auxiliary, nothing in the code by itself. *)
Definition k2 q t s0 s1 := D1 q (y t) s1 +v (1/2) *v D2 q (y t) s0 s0.
(** Auxiliary, nothing in the code by itself. *)
Definition k3 q t s0 s1 s2 := D1 q (y t) s2 +v (1/2) *v (D2 q (y t) s0 s1 +v D2 q (y t) s1 s0) +v (1/6) *v D3 q (y t) s0 s0 s0.
(** Auxiliary, nothing in the code by itself. *)
Definition e1 (t : R) : vec I := vsum m (fun q => ff q t).
(** Auxiliary, nothing in the code by itself. *)
Definition e2 (t : R) : vec I := (1/2) *v vsum m (fun q => k1 q t (e1 t)).
(** Auxiliary, nothing in the code by itself. *)
Definition e3 (t : R) : vec I := (1/3) *v vsum m (fun q => k2 q t (e1 t) (e2 t)).
(** Auxiliary, nothing in the code by itself. *)
Definition e4 (t : R) : vec I := (1/4) *v vsum m (fun q => k3 q t (e1 t) (e2 t) (e3 t)).

Lemma on_solution t : t0 <= t <= T -> along y t0 T (y t). Proof. intros H. exists t. split; [exact H|reflexivity]. Qed.
Lemma at_y q t : (q < m)%nat -> t0 <= t <= T -> sup_le (ff q t) M /\ bounded1 M (D1 q (y t)) /\ bounded2 M (D2 q (y t)) /\ bounded3 M (D3 q (y t)).
Proof. intros Hq Ht. destruct (sm q (y t) Hq (on_solution t Ht)) as (A & B & C & D & _). auto. Qed.

(** generic bounds for k1, k2, k3 *)
Section Bounds.
Context {P : Type} (dom : P -> R -> Prop) (q : P -> nat) (t : P -> R).
Hypothesis good : forall z h, dom z h -> (q z < m)%nat /\ t0 <= t z <= T.
Lemma ord_ff : ord dom 0 (fun z _ => ff (q z) (t z)).
Proof. exists M, 1. split; [lra|]. split; [exact M0|]. intros z h X _. rewrite pow_O, Rmult_1_r. destruct (good z h X) as [A B]. apply (at_y _ _ A B). Qed.
Lemma gB1 z h : dom z h -> bounded1 M (D1 (q z) (y (t z))). Proof. intros X. destruct (good z h X) as [A B]. apply (at_y _ _ A B). Qed.
Lemma gB2 z h : dom z h -> bounded2 M (D2 (q z) (y (t z))). Proof. intros X. destruct (good z h X) as [A B]. apply (at_y _ _ A B). Qed.
Lemma gB3 z h : dom z h -> bounded3 M (D3 (q z) (y (t z))). Proof. intros X. destruct (good z h X) as [A B]. apply (at_y _ _ A B). Qed.
Lemma ord_k1 (s0 : P -> vec I) : ord dom 0 (fun z _ => s0 z) -> ord dom 0 (fun z _ => k1 (q z) (t z) (s0 z)).
Proof. intros A. apply (O_D1 dom M M0 0 (fun z => D1 (q z) (y (t z))) (fun z _ => s0 z)); [intros z h; apply gB1|exact A]. Qed.
Lemma ord_k2 (s0 s1 : P -> vec I) : ord dom 0 (fun z _ => s0 z) -> ord dom 0 (fun z _ => s1 z) -> ord dom 0 (fun z _ => k2 (q z) (t z) (s0 z) (s1 z)).
Proof.
  intros A B. unfold k2. apply O_add; [apply (O_D1 dom M M0 0 (fun z => D1 (q z) (y (t z))) (fun z _ => s1 z)); [intros z h; apply gB1|exact B]|].
  apply O_scal. apply (O_D2 dom M M0 0 0 (fun z => D2 (q z) (y (t z))) (fun z _ => s0 z) (fun z _ => s0 z)); [intros z h; apply gB2|exact A|exact A].
Qed.
Lemma ord_k3 (s0 s1 s2 : P -> vec I) : ord dom 0 (fun z _ => s0 z) -> ord dom 0 (fun z _ => s1 z) -> ord dom 0 (fun z _ => s2 z) -> ord dom 0 (fun z _ => k3 (q z) (t z) (s0 z) (s1 z) (s2 z)).
Proof.
  intros A B C. unfold k3. apply O_add; [apply O_add|].
  - apply (O_D1 dom M M0 0 (fun z => D1 (q z) (y (t z))) (fun z _ => s2 z)); [intros z h; apply gB1|exact C].
  - apply O_scal. apply O_add; [apply (O_D2 dom M M0 0 0 (fun z => D2 (q z) (y (t z))) (fun z _ => s0 z) (fun z _ => s1 z))|apply (O_D2 dom M M0 0 0 (fun z => D2 (q z) (y (t z))) (fun z _ => s1 z) (fun z _ => s0 z))]; try (intros z h; apply gB2); assumption.
  - apply O_scal. apply (O_D3 dom M M0 0 0 0 (fun z => D3 (q z) (y (t z))) (fun z _ => s0 z) (fun z _ => s0 z) (fun z _ => s0 z)); try (intros z h; apply gB3); assumption.
Qed.
(** the right-hand side, ConvergenceFacts.expand *)
Lemma expand_at (a1 a2 a3 : P -> vec I) l v : ord dom 0 (fun z _ => a1 z) -> ord dom 0 (fun z _ => a2 z) -> ord dom 0 (fun z _ => a3 z) -> (1 <= l <= p)%nat ->
  ord dom l (fun z h => v z h -v (h *v a1 z +v h ^ 2 *v a2 z +v h ^ 3 *v a3 z)) ->
  ord dom l (fun z h => F (q z) (y (t z) +v v z h) -v (ff (q z) (t z) +v h *v k1 (q z) (t z) (a1 z) +v h ^ 2 *v k2 (q z) (t z) (a1 z) (a2 z) +v h ^ 3 *v k3 (q z) (t z) (a1 z) (a2 z) (a3 z))).
Proof.
  intros A B C Hl Hv. apply (expand dom p (fun z => F (q z)) (fun z => y (t z)) (fun z => D1 (q z) (y (t z))) (fun z => D2 (q z) (y (t z))) (fun z => D3 (q z) (y (t z))) M r p4 r0 M0 gB1 gB2 gB3) with (a1 := a1) (a2 := a2) (a3 := a3); try assumption.
  intros z h u rho X. destruct (good z h X) as [Hq Ht]. destruct (sm (q z) (y (t z)) Hq (on_solution _ Ht)) as (_ & _ & _ & _ & G). apply G.
Qed.
End Bounds.

(** ** The exact solution *)
(** Auxiliary, nothing in the code by itself. *)
Definition dom_e (t h : R) : Prop := t0 <= t /\ t + h <= T.
(** Auxiliary, nothing in the code by itself. *)
Definition dom_p (t h : R) : Prop := t0 <= t <= T.
Lemma good_p q : (q < m)%nat -> forall z h, dom_p z h -> (q < m)%nat /\ t0 <= z <= T. Proof. intros Hq z h X. split; [exact Hq|exact X]. Qed.
Lemma ord_e1 : ord dom_p 0 (fun t _ => e1 t).
Proof. apply O_vsum. intros q Hq. apply (ord_ff dom_p (fun _ => q) (fun t => t)). apply good_p. exact Hq. Qed.
Lemma ord_e2 : ord dom_p 0 (fun t _ => e2 t).
Proof. apply O_scal. apply O_vsum. intros q Hq. apply (ord_k1 dom_p (fun _ => q) (fun t => t)); [apply good_p; exact Hq|exact ord_e1]. Qed.
Lemma ord_e3 : ord dom_p 0 (fun t _ => e3 t).
Proof. apply O_scal. apply O_vsum. intros q Hq. apply (ord_k2 dom_p (fun _ => q) (fun t => t)); [apply good_p; exact Hq|exact ord_e1|exact ord_e2]. Qed.
Lemma ord_e4 : ord dom_p 0 (fun t _ => e4 t).
Proof. apply O_scal. apply O_vsum. intros q Hq. apply (ord_k3 dom_p (fun _ => q) (fun t => t)); [apply good_p; exact Hq|exact ord_e1|exact ord_e2|exact ord_e3]. Qed.
Lemma ord_pe k (f : R -> R -> vec I) : ord dom_p k f -> ord dom_e k f.
Proof. intros (C & h0 & H0 & HC & H). exists C, h0. split; [exact H0|]. split; [exact HC|]. intros t h [X Y] Hh. apply H; [split; lra|exact Hh]. Qed.

(** Auxiliary, nothing in the code by itself. *)
Definition poly (t h : R) : vec I := h *v e1 t +v h ^ 2 *v e2 t +v h ^ 3 *v e3 t +v h ^ 4 *v e4 t.
(** Auxiliary, nothing in the code by itself. *)
Definition dpoly (t h : R) : vec I := e1 t +v (2 * h) *v e2 t +v (3 * h ^ 2) *v e3 t +v (4 * h ^ 3) *v e4 t.
Lemma poly_deriv t h i : derivable_pt_lim (fun u => poly t u i) h (dpoly t h i).
Proof.
  unfold poly, dpoly, vadd, vscal.
  assert (P : forall n c, derivable_pt_lim (fun u => u ^ n * c) h ((INR n * h ^ pred n) * c)).
  { intros n c. pose proof (derivable_pt_lim_scal (fun u => u ^ n) c h _ (derivable_pt_lim_pow h n)) as H. unfold mult_real_fct in H.
    replace (INR n * h ^ pred n * c) with (c * (INR n * h ^ pred n)) by ring. eapply derivable_pt_lim_ext; [|exact H]. intros u. cbv beta. ring. }
  pose proof (P 1%nat (e1 t i)) as H1. pose proof (P 2%nat (e2 t i)) as H2. pose proof (P 3%nat (e3 t i)) as H3. pose proof (P 4%nat (e4 t i)) as H4. cbn [pred INR] in *.
  pose proof (derivable_pt_lim_plus _ _ _ _ _ (derivable_pt_lim_plus _ _ _ _ _ (derivable_pt_lim_plus _ _ _ _ _ H1 H2) H3) H4) as H. unfold plus_fct in H.
  replace (e1 t i + 2 * h * e2 t i + 3 * h ^ 2 * e3 t i + 4 * h ^ 3 * e4 t i) with ((1 * h ^ 0 * e1 t i + (1 + 1) * h ^ 1 * e2 t i) + (1 + 1 + 1) * h ^ 2 * e3 t i + (1 + 1 + 1 + 1) * h ^ 3 * e4 t i) by ring.
  eapply derivable_pt_lim_ext; [|exact H]. intros u. cbv beta. ring.
Qed.
(** Auxiliary, nothing in the code by itself. *)
Definition rate (t h : R) : vec I := vsum m (fun q => F q (y (t + h))).
Lemma integrate l : ord dom_e l (fun t h => rate t h -v dpoly t h) -> ord dom_e (l + 1) (fun t h => y (t + h) -v y t -v poly t h).
Proof.
  intros (C & h0 & H0 & HC & H). exists (C + Rabs 0), h0. split; [exact H0|]. split; [rewrite Rabs_R0; lra|]. rewrite Rabs_R0, Rplus_0_r. intros t h [X Y] Hh i.
  set (g := fun u => y (t + u) i - y t i - poly t u i). set (g' := fun u => rate t u i - dpoly t u i).
  assert (Dg : forall c, 0 <= c <= h -> derivable_pt_lim g c (g' c)).
  { intros c Hc. unfold g, g'. apply (derivable_pt_lim_minus (fun u => y (t + u) i - y t i) (fun u => poly t u i)); [|apply poly_deriv].
    rewrite <- (Rminus_0_r (rate t c i)). apply (derivable_pt_lim_minus (fun u => y (t + u) i) (fun _ => y t i)); [|apply derivable_pt_lim_const].
    assert (E : rate t c i = rate t c i * 1) by ring. rewrite E. clear E. apply (derivable_pt_lim_comp (fun u => t + u) (fun u => y u i)); [|unfold rate; apply (sol (t + c)); lra].
    replace 1 with (0 + 1) by ring. apply (derivable_pt_lim_plus (fun _ => t) (fun u => u)); [apply derivable_pt_lim_const|apply derivable_pt_lim_id]. }
  destruct (MVT_cor2 g g' 0 h ltac:(lra) Dg) as (c & Ec & Hc).
  assert (G0 : g 0 = 0) by (unfold g, poly; vunfold; rewrite Rplus_0_r; ring).
  unfold vsub. change (y (t + h) i - y t i - poly t h i) with (g h). rewrite G0, !Rminus_0_r in Ec. rewrite Ec, Rabs_mult, (Rabs_pos_eq h) by lra.
  replace (C * h ^ (l + 1)) with ((C * h ^ l) * h) by (rewrite pow_add; ring). apply Rmult_le_compat_r; [lra|].
  apply (Rle_trans _ (C * c ^ l)); [apply (H t c); [split; lra|lra]|]. apply Rmult_le_compat_l; [exact HC|]. apply pow_incr. lra.
Qed.
Lemma exact_expansion l : (l <= p)%nat -> ord dom_e (l + 1) (fun t h => y (t + h) -v y t -v poly t h).
Proof.
  pose proof (ord_pe 0 _ ord_e1) as E1. pose proof (ord_pe 0 _ ord_e2) as E2. pose proof (ord_pe 0 _ ord_e3) as E3. pose proof (ord_pe 0 _ ord_e4) as E4.
  induction l as [|l IH]; intros Hl.
  - apply integrate. apply O_sub.
    + exists (INR m * M), 1. split; [lra|]. split; [apply Rmult_le_pos; [apply pos_INR|exact M0]|]. intros t h [X Y] Hh. rewrite pow_O, Rmult_1_r. apply sup_vsum. intros q Hq. apply (at_y q (t + h) Hq). lra.
    + unfold dpoly. apply O_add; [apply O_add; [apply O_add|]|]; [exact E1| | |].
      * apply (O_ext dom_e 0 (fun t h => h ^ 1 *v (2 *v e2 t))); [intros; vunfold; ring|]. apply (O_weak dom_e (1 + 0)); [lia|]. apply (O_pow dom_e 0 1 (fun t _ => 2 *v e2 t)). apply O_scal. exact E2.
      * apply (O_ext dom_e 0 (fun t h => h ^ 2 *v (3 *v e3 t))); [intros; vunfold; ring|]. apply (O_weak dom_e (2 + 0)); [lia|]. apply (O_pow dom_e 0 2 (fun t _ => 3 *v e3 t)). apply O_scal. exact E3.
      * apply (O_ext dom_e 0 (fun t h => h ^ 3 *v (4 *v e4 t))); [intros; vunfold; ring|]. apply (O_weak dom_e (3 + 0)); [lia|]. apply (O_pow dom_e 0 3 (fun t _ => 4 *v e4 t)). apply O_scal. exact E4.
  - specialize (IH ltac:(lia)). replace (S l) with (l + 1)%nat by lia. apply integrate.
    assert (V : ord dom_e (l + 1) (fun t h => (y (t + h) -v y t) -v (h *v e1 t +v h ^ 2 *v e2 t +v h ^ 3 *v e3 t))).
    { apply (O_ext dom_e (l + 1) (fun t h => (y (t + h) -v y t -v poly t h) +v h ^ 4 *v e4 t)); [intros; unfold poly; vunfold; ring|]. apply O_add; [exact IH|].
      apply (O_weak dom_e (4 + 0)); [lia|]. apply (O_pow dom_e 0 4 (fun t _ => e4 t)). exact E4. }
    assert (G : forall q, (q < m)%nat -> forall z h, dom_e z h -> 0 < h -> (q < m)%nat /\ t0 <= z <= T) by (intros q Hq z h [X Y] Hh; split; [exact Hq|lra]).
    apply (O_ext dom_e (l + 1) (fun t h => vsum m (fun q => F q (y t +v (y (t + h) -v y t)) -v (ff q t +v h *v k1 q t (e1 t) +v h ^ 2 *v k2 q t (e1 t) (e2 t) +v h ^ 3 *v k3 q t (e1 t) (e2 t) (e3 t))))).
    + intros t h _ _ i. rewrite vsum_sub.
      rewrite (vsum_ext m (fun q => F q (y t +v (y (t + h) -v y t))) (fun q => F q (y (t + h)))) by (intros q _; f_equal; vring). fold (rate t h).
      assert (EB : vsum m (fun q => ff q t +v h *v k1 q t (e1 t) +v h ^ 2 *v k2 q t (e1 t) (e2 t) +v h ^ 3 *v k3 q t (e1 t) (e2 t) (e3 t)) = dpoly t h).
      { rewrite !vsum_add, !vsum_scal. unfold dpoly. fold (e1 t). set (z1 := vsum m (fun q => k1 q t (e1 t))). set (z2 := vsum m (fun q => k2 q t (e1 t) (e2 t))). set (z3 := vsum m (fun q => k3 q t (e1 t) (e2 t) (e3 t))).
        change (e2 t) with ((1/2) *v z1). change (e3 t) with ((1/3) *v z2). change (e4 t) with ((1/4) *v z3). clearbody z1 z2 z3. vfield. }
      rewrite EB. reflexivity.
    + apply O_vsum. intros q Hq.
      pose (dom' := fun t h => dom_e t h /\ 0 < h).
      assert (K : forall k (f : R -> R -> vec I), ord dom_e k f -> ord dom' k f) by (intros k f (C & h0 & H0 & HC & H); exists C, h0; split; [exact H0|]; split; [exact HC|]; intros t h [X _]; apply H; exact X).
      assert (K' : forall k (f : R -> R -> vec I), ord dom' k f -> ord dom_e k f) by (intros k f (C & h0 & H0 & HC & H); exists C, h0; split; [exact H0|]; split; [exact HC|]; intros t h X Hh; apply H; [split; [exact X|lra]|exact Hh]).
      apply K'. apply (expand_at dom' (fun _ => q) (fun t => t)) with (a1 := e1) (a2 := e2) (a3 := e3) (v := fun t h => y (t + h) -v y t); [intros z h [X Hh]; apply (G q Hq z h X Hh)|apply K; assumption|apply K; assumption|apply K; assumption|lia|apply K; exact V].
Qed.
End Exact.
