(** C138, implicit and implicit-explicit schemes: convergence with the advertised order. *)
From Coq Require Import Lra Lia.
From Verif Require Import Base Vec RK RKSpec RKFacts RKProps IMEXSpec IMEX IMEXFacts IMEXProps ThetaSpec Theta ThetaProps ConvergenceSpec ConvergenceFacts ConvergenceExact ConvergenceTrees ConvergenceRK ConvergenceMain ConvergenceProps.
Open Scope R_scope.

(** what convergence of order p of a one-step scheme means: the error after any number of steps of any sizes at most hm is at most C (initial error + hm^p) *)
Definition converges_with_order {I} (p : nat) (step : R -> vec I -> vec I -> Prop) (y : R -> vec I) (t0 T : R) : Prop :=
  exists C h0, 0 <= C /\ 0 < h0 /\
  forall h hm n (x : nat -> vec I) e0, step_sizes h hm n t0 T -> hm <= h0 -> (forall k, (k < n)%nat -> step (h k) (x k) (x (S k))) ->
  0 <= e0 -> sup_le (x 0%nat -v y t0) e0 -> sup_le (x n -v y (t0 + rsum n h)) (C * (e0 + hm ^ p)).

Lemma one_part {I} p s (F : vec I -> vec I) y t0 T L A b B (step : R -> vec I -> vec I -> Prop) :
  finite_index I -> (1 <= p <= 4)%nat -> regular p F y t0 T L everywhere -> solution_of F y t0 T -> 0 <= B -> coefficients_at_most A b B -> ark_order 1 s A b p 0 ->
  (forall h x x', step h x x' -> ark_step 1 s A b (fun _ => F) everywhere h x x') -> converges_with_order p step y t0 T.
Proof.
  intros fin p4 (Lp & nb & sm) sol B0 HB Ho Hs.
  destruct (additive_runge_kutta_converges I p 1 s (fun _ => F) y t0 T B L everywhere fin p4 B0 (proj1 Lp) ltac:(intros; split; assumption) nb (solution_solves _ _ _ _ sol)) as (C & h0 & HC & H0 & H).
  exists C, h0. split; [exact HC|]. split; [exact H0|]. intros h hm n x e0 Hh Hm Hst He Hx. replace (C * (e0 + hm ^ p)) with (C * (e0 + hm ^ p + 0)) by ring.
  apply (H A b 0 h hm n x e0); try assumption; [lra|]. intros k Hk. apply Hs. apply Hst. exact Hk.
Qed.
(** stage form with a full matrix *)
Lemma stages_ark {I} s (A : nat -> nat -> R) (b : nat -> R) (F : vec I -> vec I) h x x' (Y : nat -> vec I) :
  (forall i, (i < s)%nat -> Y i = x +v h *v vsum s (fun j => A i j *v F (Y j))) -> x' = x +v h *v vsum s (fun j => b j *v F (Y j)) -> ark_step 1 s (fun _ => A) (fun _ => b) (fun _ => F) everywhere h x x'.
Proof.
  intros HY E. exists (fun _ i => F (Y i)). split; [intros; exact Logic.I|]. split.
  - intros q i _ Hi. cbn [vsum]. replace (vzero +v vsum s (fun j => A i j *v F (Y j))) with (vsum s (fun j => A i j *v F (Y j))) by vring. rewrite <- (HY i Hi). reflexivity.
  - rewrite E. cbn [vsum]. vring.
Qed.
Definition lower (s : nat) (A : nat -> nat -> R) : Prop := forall i j, (i < s)%nat -> (j < s)%nat -> (i < j)%nat -> A i j = 0.
Lemma vsum_ge {I} n m (f : nat -> vec I) : (n <= m)%nat -> (forall j, (n <= j < m)%nat -> f j = vzero) -> vsum m f = vsum n f.
Proof.
  intros H Z. apply functional_extensionality. intros i. rewrite !vsum_at. apply rsum_ge; [exact H|]. intros j Hj. rewrite Z by exact Hj. reflexivity.
Qed.
Lemma dirk_ark {I} A b s (F : vec I -> vec I) h x x' : lower s A -> dirk_step A b s F h x x' -> ark_step 1 s (fun _ => A) (fun _ => b) (fun _ => F) everywhere h x x'.
Proof.
  intros HL (k & HK & E). exists (fun _ => k). split; [intros; exact Logic.I|]. split.
  - intros q i _ Hi. cbn [vsum]. rewrite (HK i Hi) at 1. rewrite (vsum_ge (S i) s (fun j => A i j *v k j)); [f_equal; vring|lia|].
    intros j Hj. rewrite (HL i j Hi) by lia. vring.
  - rewrite E. cbn [vsum]. vring.
Qed.
Lemma pair_bounded A B : bounded_table A B -> forall s, coefficients_at_most (fun _ => A) (fun _ => A s) B.
Proof. intros [_ H] s q i j. split; apply H. Qed.
Lemma order2_ark s A b : rsum s b = 1 -> rsum s (fun i => b i * rsum s (A i)) = 1/2 -> ark_order 1 s (fun _ => A) (fun _ => b) 2 0.
Proof.
  intros H1 H2. split; [intros _ q _; apply near_0; [lra|exact H1]|]. split; [intros _ q u _ _; apply near_0; [lra|exact H2]|]. split; intros; lia.
Qed.

(** one call of ImplicitRungeKutta.apply in either formulation, at any step of a run *)
Definition implicit_apply {I} (A : nat -> nat -> R) (s : nat) (N : vec I -> vec I) (h : R) (x x' : vec I) : Prop :=
  (exists X0, irk_predictor A s h N X0 x x') \/ (exists st, (cached st = None \/ cached st = Some (A 0%nat 0%nat)) /\ irk_increment A s h N st x x').
(** C138.  ImplicitMidpoint and QinZhang, both formulations: second order. *)
Theorem implicit_runge_kutta_converges :
  forall (I : Type) (A : nat -> nat -> R) (s : nat) (N : vec I -> vec I) (y : R -> vec I) (t0 T L : R),
  (A = tab_ImplicitMidpoint /\ s = 1 \/ A = tab_QinZhang /\ s = 2)%nat -> finite_index I ->
  regular 2 (fun v => vopp (N v)) y t0 T L everywhere -> solution_of (fun v => vopp (N v)) y t0 T ->
  converges_with_order 2 (implicit_apply A s N) y t0 T.
Proof.
  intros I A s N y t0 T L HA fin reg sol.
  assert (HB : exists B, bounded_table A B) by (destruct HA as [[-> _]|[-> _]]; apply table_bounded). destruct HB as (B & HB).
  assert (HL : lower s A). { intros i j Hi Hj Hij. destruct HA as [[-> ->]|[-> ->]]; [lia|]. assert (i = 0 /\ j = 1)%nat as [-> ->] by lia. reflexivity. }
  assert (HO : ark_order 1 s (fun _ => A) (fun _ => A s) 2 0).
  { destruct irk_schemes_second_order as [[Q1 Q2] [Q3 Q4]]. destruct HA as [[-> ->]|[-> ->]]; apply order2_ark; assumption. }
  assert (HD : forall i, (i < s)%nat -> A i i = A 0%nat 0%nat).
  { destruct irk_provided_schemes_constant_diagonal as [Q1 Q2]. destruct HA as [[-> ->]|[-> ->]]; assumption. }
  apply (one_part 2 s (fun v => vopp (N v)) y t0 T L (fun _ => A) (fun _ => A s) B); try assumption; [lia|apply HB|apply pair_bounded; exact HB|].
  intros h x x' Hst. apply dirk_ark; [exact HL|]. destruct Hst as [(X0 & H)|(st & Hc & H)]; [apply irk_predictor_is_textbook in H; exact H|].
  apply (irk_formulations_agree_partial I A s h N st (fun _ => vzero) x x' Hc HD) in H. apply irk_predictor_is_textbook in H. exact H.
Qed.
Print Assumptions implicit_runge_kutta_converges.

(** ** IMEX *)
Definition strictly_lower (s : nat) (A : nat -> nat -> R) : Prop := forall i j, (i < s)%nat -> (j < s)%nat -> (i <= j)%nat -> A i j = 0.
Definition two {X} (a b : X) (q : nat) : X := match q with O => a | _ => b end.
Lemma imex_ark {I} A D b e s (Fi Fe : vec I -> vec I) h x x' : lower s A -> strictly_lower s D -> imex_step A D b e s Fi Fe h x x' -> ark_step 2 s (two A D) (two b e) (two Fi Fe) everywhere h x x'.
Proof.
  intros HA HD (Y & HY & E). exists (fun q i => two Fi Fe q (Y i)). split; [intros; exact Logic.I|]. split.
  - intros q i Hq Hi. cbn [vsum two]. f_equal. rewrite (HY i Hi) at 1.
    rewrite (vsum_ge (S i) s (fun j => A i j *v Fi (Y j))); [|lia|intros j Hj; rewrite (HA i j Hi) by lia; vring].
    rewrite (vsum_ge i s (fun j => D i j *v Fe (Y j))); [|lia|intros j Hj; rewrite (HD i j Hi) by lia; vring]. vring.
  - rewrite E. cbn [vsum two]. vring.
Qed.
Lemma in_two {X} (a b : X) q : (q < 2)%nat -> In (two a b q) [a; b].
Proof. intros H. destruct q as [|[|q]]; [left; reflexivity|right; left; reflexivity|lia]. Qed.
Definition pair_order (p s : nat) A D b e : Prop := match p with 1%nat => pair_order1 s b e | 2%nat => pair_order2 s A D b e | 3%nat => pair_order3 s A D b e | _ => False end.
Lemma pair_ark p s A D b e : pair_order p s A D b e -> ark_order 2 s (two A D) (two b e) p 0.
Proof.
  intros H. assert (H1 : pair_order1 s b e) by (destruct p as [|[|[|[|p]]]]; cbn in H; try contradiction; [exact H|apply H|apply H]).
  assert (H2 : (2 <= p)%nat -> pair_order2 s A D b e) by (intros Hp; destruct p as [|[|[|[|p]]]]; cbn in H; try contradiction; try lia; [exact H|apply H]).
  assert (H3 : (3 <= p)%nat -> pair_order3 s A D b e) by (intros Hp; destruct p as [|[|[|[|p]]]]; cbn in H; try contradiction; try lia; exact H).
  assert (H4 : (p <= 3)%nat) by (destruct p as [|[|[|[|p]]]]; cbn in H; try contradiction; lia).
  split; [|split; [|split]].
  - intros _ q Hq. apply near_0; [lra|]. destruct H1 as [X1 X2]. destruct q as [|[|q]]; [exact X1|exact X2|lia].
  - intros Hp q u Hq Hu. apply near_0; [lra|]. destruct (H2 Hp) as [_ X]. apply (X (two b e q) (two A D u)); apply in_two; assumption.
  - intros Hp q u v Hq Hu Hv. destruct (H3 Hp) as [_ X]. destruct (X (two b e q) (two A D u) (two A D v)) as [X1 X2]; try (apply in_two; assumption). split; apply near_0; try lra; [exact X1|exact X2].
  - intros Hp. lia.
Qed.
(** IMEX_Euler, IMEX_ARK2, IMEX_SSP3, IMEX_Trap2 and IMEX_ARS3 with their orders *)
Definition imex_schemes : list (nat * nat * (nat -> nat -> R) * (nat -> nat -> R)) :=
  [(1%nat, 2%nat, imex_euler_imp, imex_euler_exp); (2%nat, 3%nat, ark2_imp, ark2_exp); (2%nat, 3%nat, ssp3_imp, ssp3_exp); (2%nat, 4%nat, trap2_imp, trap2_exp); (3%nat, 3%nat, ars3_imp, ars3_exp)].
Lemma imex_schemes_fine p s A D : In (p, s, A, D) imex_schemes -> (0 < s)%nat /\ (1 <= p <= 4)%nat /\ lower s A /\ strictly_lower s D /\ pair_order p s A D (A s) (D s) /\ exists B, 0 <= B /\ coefficients_at_most (two A D) (two (A s) (D s)) B.
Proof.
  intros Hin. destruct imex_schemes_consistent as (C1 & _). destruct imex_schemes_second_order as (S1 & S2 & S3). pose proof imex_ars3_third_order as S4.
  assert (BD : forall A D : nat -> nat -> R, (exists B, bounded_table A B) -> (exists B, bounded_table D B) -> exists B, 0 <= B /\ coefficients_at_most (two A D) (two (A s) (D s)) B).
  { intros A' D' (B1 & P1 & Q1) (B2 & P2 & Q2). exists (Rmax B1 B2). split; [eapply Rle_trans; [exact P1|apply Rmax_l]|]. intros [|q] i j; cbn [two]; split; ((eapply Rle_trans; [apply Q1|apply Rmax_l]) || (eapply Rle_trans; [apply Q2|apply Rmax_r])). }
  assert (LL : forall i j : nat, (i < 4)%nat -> (j < 4)%nat -> In i [0;1;2;3]%nat /\ In j [0;1;2;3]%nat) by (intros; split; cbn; lia).
  assert (N : forall k : nat, (k < 4)%nat -> k = 0%nat \/ k = 1%nat \/ k = 2%nat \/ k = 3%nat) by (intros; lia).
  cbn [imex_schemes In] in Hin.
  repeat (destruct Hin as [E|Hin]; [injection E as <- <- <- <-; (split; [lia|]); (split; [lia|]);
    (split; [intros i j Hi Hj Hij; destruct (N i ltac:(lia)) as [->|[->|[->| ->]]]; destruct (N j ltac:(lia)) as [->|[->|[->| ->]]]; try lia; reflexivity|]);
    (split; [intros i j Hi Hj Hij; destruct (N i ltac:(lia)) as [->|[->|[->| ->]]]; destruct (N j ltac:(lia)) as [->|[->|[->| ->]]]; try lia; reflexivity|]);
    (split; [assumption|apply BD; apply table_bounded])|]). destruct Hin.
Qed.
(** C138.  The IMEX schemes for dy/dt = Fi(y) + Fe(y): the advertised order including the coupling, both parts nonlinear. *)
Theorem imex_schemes_converge :
  forall (I : Type) (p s : nat) (A D : nat -> nat -> R) (Ni Ne Ns ev : vec I -> vec I) (y : R -> vec I) (t0 T L : R),
  let Fi := fun v => vopp (Ni v) in let Fe := fun v => vopp (Ne v +v Ns (ev v)) in
  In (p, s, A, D) imex_schemes -> finite_index I -> regular p Fi y t0 T L everywhere -> regular p Fe y t0 T L everywhere -> solution_of (fun v => Fi v +v Fe v) y t0 T ->
  converges_with_order p (fun h x x' => exists st, imex_apply A D s h Ni Ne Ns ev no_limiter st x x') y t0 T.
Proof.
  intros I p s A D Ni Ne Ns ev y t0 T L Fi Fe Hin fin (L1 & nb & S1) (L2 & _ & S2) sol.
  destruct (imex_schemes_fine p s A D Hin) as (Hs & p4 & HA & HD & HO & B & B0 & HB).
  assert (sol' : solves 2 (two Fi Fe) y t0 T).
  { intros t i Ht. cbn [vsum two]. replace (((vzero +v Fi (y t)) +v Fe (y t)) i) with ((Fi (y t) +v Fe (y t)) i) by (vunfold; ring). apply sol. exact Ht. }
  assert (HF : forall q, (q < 2)%nat -> lipschitz L (two Fi Fe q) everywhere /\ smooth p (two Fi Fe q) (along y t0 T)) by (intros [|[|q]] Hq; [split; assumption|split; assumption|lia]).
  destruct (additive_runge_kutta_converges I p 2 s (two Fi Fe) y t0 T B L everywhere fin p4 B0 (proj1 L1) HF nb sol') as (C & h0 & HC & H0 & H).
  exists C, h0. split; [exact HC|]. split; [exact H0|]. intros h hm n x e0 Hh Hm Hst He Hx. replace (C * (e0 + hm ^ p)) with (C * (e0 + hm ^ p + 0)) by ring.
  apply (H (two A D) (two (A s) (D s)) 0 h hm n x e0); try assumption; [lra|apply pair_ark; exact HO|]. intros k Hk. destruct (Hst k Hk) as (st & Q). apply imex_is_textbook in Q; [|exact Hs]. apply imex_ark; assumption.
Qed.
Print Assumptions imex_schemes_converge.

(** ** ThetaMethod, TrapeziumRule, BackwardEuler, TR_BDF2 *)
Definition theta_imp (theta : R) : nat -> nat -> R := table [[0; 0]; [1 - theta; theta]; [1 - theta; theta]].
Definition theta_exp : nat -> nat -> R := table [[0; 0]; [1; 0]; [1; 0]].
Lemma theta_ark {I} theta (F P : vec I -> vec I) h x x' : theta_step theta F P h x x' -> ark_step 2 2 (two (theta_imp theta) theta_exp) (two (theta_imp theta 2%nat) (theta_exp 2%nat)) (two F P) everywhere h x x'.
Proof.
  unfold theta_step. intros E. exists (fun q i => two F P q (two x x' i)). split; [intros; exact Logic.I|].
  assert (G : x' = x +v h *v (vsum 2 (fun q => vsum 2 (fun i => two (theta_imp theta 1%nat) (theta_exp 1%nat) q i *v two F P q (two x x' i))))).
  { rewrite E at 1. unfold theta_imp, theta_exp, table. cbn [vsum two nth]. generalize (F x) (F x') (P x) (P x'). intros. vring. }
  split; [|exact G]. intros q i Hq Hi. destruct i as [|[|i]]; [|cbn [two]|lia].
  - cbn [two]. f_equal. unfold theta_imp, theta_exp, table. cbn [vsum two nth]. generalize (F x) (F x') (P x) (P x'). intros. vring.
  - f_equal. exact G.
Qed.
Theorem theta_methods_converge :
  forall (I : Type) (theta : R) (N P : vec I -> vec I) (X : vec I) (y : R -> vec I) (t0 T L : R), finite_index I ->
  regular 1 (neg N) y t0 T L everywhere -> regular 1 (neg P) y t0 T L everywhere -> solution_of (fun v => neg N v +v neg P v) y t0 T ->
  converges_with_order 1 (fun h x x' => exists src src', theta_cycle N P h X theta src x x' src') y t0 T /\
  converges_with_order 1 (fun h x x' => exists src src', be_cycle N P h X src x x' src') y t0 T.
Proof.
  intros I theta N P X y t0 T L fin (L1 & nb & S1) (L2 & _ & S2) sol.
  assert (sol' : solves 2 (two (neg N) (neg P)) y t0 T).
  { intros t i Ht. cbn [vsum two]. replace (((vzero +v neg N (y t)) +v neg P (y t)) i) with ((neg N (y t) +v neg P (y t)) i) by (vunfold; ring). apply sol. exact Ht. }
  assert (HF : forall q, (q < 2)%nat -> lipschitz L (two (neg N) (neg P) q) everywhere /\ smooth 1 (two (neg N) (neg P) q) (along y t0 T)) by (intros [|[|q]] Hq; [split; assumption|split; assumption|lia]).
  assert (G : forall th (step : R -> vec I -> vec I -> Prop), (forall h x x', step h x x' -> theta_step th (neg N) (neg P) h x x') -> converges_with_order 1 step y t0 T).
  { intros th step Hstep. destruct (table_bounded [[0; 0]; [1 - th; th]; [1 - th; th]]) as (B1 & P1 & Q1). destruct (table_bounded [[0; 0]; [1; 0]; [1; 0]]) as (B2 & P2 & Q2). fold (theta_imp th) in Q1. fold theta_exp in Q2.
    assert (B0 : 0 <= Rmax B1 B2) by (eapply Rle_trans; [exact P1|apply Rmax_l]).
    destruct (additive_runge_kutta_converges I 1 2 2 (two (neg N) (neg P)) y t0 T (Rmax B1 B2) L everywhere fin ltac:(lia) B0 (proj1 L1) HF nb sol') as (C & h0 & HC & H0 & H).
    exists C, h0. split; [exact HC|]. split; [exact H0|]. intros h hm n x e0 Hh Hm Hst He Hx. replace (C * (e0 + hm ^ 1)) with (C * (e0 + hm ^ 1 + 0)) by ring.
    apply (H (two (theta_imp th) theta_exp) (two (theta_imp th 2%nat) (theta_exp 2%nat)) 0 h hm n x e0); try assumption; [|lra| |].
    - intros [|q] i j; cbn [two]; split; ((eapply Rle_trans; [apply Q1|apply Rmax_l]) || (eapply Rle_trans; [apply Q2|apply Rmax_r])).
    - split; [intros _ q Hq; apply near_0; [lra|]; destruct q as [|[|q]]; [unfold theta_imp|unfold theta_exp|lia]; unfold table; cbn; lra|]. split; [intros; lia|]. split; intros; lia.
    - intros k Hk. apply theta_ark. apply Hstep. apply Hst. exact Hk. }
  split.
  - apply (G theta). intros h x x' (src & src' & Q). apply theta_cycle_iff in Q. apply Q.
  - apply (G 1). intros h x x' (src & src' & Q). apply be_cycle_iff in Q. apply Q.
Qed.
Print Assumptions theta_methods_converge.

(** second order without physics: the trapezium rule (theta = 1/2) and TR_BDF2 with every parameter it can run with *)
Theorem second_order_implicit_methods_converge :
  forall (I : Type) (N : vec I -> vec I) (X : vec I) (y : R -> vec I) (t0 T L : R), finite_index I ->
  regular 2 (neg N) y t0 T L everywhere -> solution_of (neg N) y t0 T ->
  converges_with_order 2 (fun h x x' => exists src src', theta_cycle N (fun _ => vzero) h X (1/2) src x x' src') y t0 T /\
  forall g, 0 < g <= 1 -> converges_with_order 2 (fun h x x' => exists src', tr_bdf2_apply N h X g vzero x (Ok x') src') y t0 T.
Proof.
  intros I N X y t0 T L fin reg sol. split.
  - destruct (table_bounded [[0; 0]; [1 - 1/2; 1/2]; [1 - 1/2; 1/2]]) as (B1 & P1 & Q1). fold (theta_imp (1/2)) in Q1.
    apply (one_part 2 2 (neg N) y t0 T L (fun _ => theta_imp (1/2)) (fun _ => theta_imp (1/2) 2%nat) B1); try assumption; [lia|intros q i j; split; apply Q1|apply order2_ark; unfold theta_imp, table; cbn; lra|].
    intros h x x' (src & src' & Q). apply theta_cycle_iff in Q. destruct Q as [_ Q]. unfold theta_step in Q.
    apply (stages_ark 2 (theta_imp (1/2)) (theta_imp (1/2) 2%nat) (neg N) h x x' (two x x')).
    + intros i Hi. destruct i as [|[|i]]; [| |lia]; unfold theta_imp, table; cbn [vsum two nth]; [generalize (neg N x) (neg N x'); intros; vring|].
      rewrite Q at 1. unfold neg at 3. generalize (neg N x) (neg N x'). intros; vring.
    + unfold theta_imp, table; cbn [vsum two nth]. rewrite Q at 1. unfold neg at 3. generalize (neg N x) (neg N x'). intros; vring.
  - intros g Hg. destruct (tr_bdf2_second_order I g Hg) as (E & [O1 O2] & _).
    assert (HB : exists B, 0 <= B /\ coefficients_at_most (fun _ => trb_A g) (fun _ => trb_A g 2%nat) B).
    { destruct (largest (list_prod (seq 0 3) (seq 0 3)) (fun z => trb_A g (fst z) (snd z))) as (B & B0 & HB & _). exists B. split; [exact B0|].
      assert (Q : forall i j, Rabs (trb_A g i j) <= B). { intros i j. destruct (le_lt_dec 3 i) as [Hi|Hi]; [|destruct (le_lt_dec 3 j) as [Hj|Hj]].
        - replace (trb_A g i j) with 0 by (destruct i as [|[|[|i]]]; try lia; reflexivity). rewrite Rabs_R0. exact B0.
        - replace (trb_A g i j) with 0 by (destruct i as [|[|[|i]]]; destruct j as [|[|[|j]]]; try lia; reflexivity). rewrite Rabs_R0. exact B0.
        - apply (HB (i, j)). apply in_prod; apply in_seq; lia. }
      intros q i j. split; apply Q. }
    destruct HB as (B & B0 & HB).
    apply (one_part 2 3 (neg N) y t0 T L (fun _ => trb_A g) (fun _ => trb_A g 2%nat) B); try assumption; [lia|apply order2_ark; [exact O1|exact O2]|].
    intros h x x' Q. apply tr_bdf2_is_textbook in Q; [|exact Hg]. apply E in Q. destruct Q as (Y & HY & EY).
    apply (stages_ark 3 (trb_A g) (trb_A g 2%nat) (neg N) h x x' Y HY). rewrite EY. apply HY. lia.
Qed.
Print Assumptions second_order_implicit_methods_converge.

(** ** The hypotheses are met, e.g. by y' = -y split into two halves *)
Definition decay (t : R) : vec unit := fun _ => exp (- t).
Lemma scaling_regular p c : (1 <= p <= 4)%nat -> Rabs c <= 1 -> regular p (fun v : vec unit => c *v v) decay 0 1 1 everywhere.
Proof.
  intros Hp Hc. split; [|split].
  - split; [lra|]. intros x z rho _ _ H i. specialize (H i). vunfold. replace (c * x i - c * z i) with (c * (x i - z i)) by ring. rewrite Rabs_mult. apply Rmult_le_compat; try apply Rabs_pos; assumption.
  - exists 1. split; [lra|]. intros. exact Logic.I.
  - exists (fun _ v => c *v v), (fun _ _ _ => vzero), (fun _ _ _ _ => vzero), 1, 1. split; [lra|]. split; [lra|]. intros x (t & Ht & ->).
    assert (E1 : exp (- t) <= 1). { rewrite <- exp_0. destruct (Rle_lt_or_eq_dec (- t) 0 ltac:(lra)) as [Q|Q]; [left; apply exp_increasing; exact Q|rewrite Q; lra]. } pose proof (exp_pos (- t)) as E0.
    split; [intros i; unfold decay; vunfold; rewrite Rabs_mult, (Rabs_pos_eq (exp (- t))) by lra; rewrite <- (Rmult_1_r 1); apply Rmult_le_compat; try lra; apply Rabs_pos|].
    split; [split; [split; intros; vring|]; intros v r Hv i; specialize (Hv i); vunfold; rewrite Rabs_mult; apply Rmult_le_compat; try apply Rabs_pos; assumption|].
    split; [split; [intros w; split; intros; vring|]; split; [intros w; split; intros; vring|]; intros v w r s Hv Hw i; specialize (Hv i); specialize (Hw i); pose proof (Rabs_pos (v i)); pose proof (Rabs_pos (w i)); vunfold; rewrite Rabs_R0; repeat apply Rmult_le_pos; lra|].
    split; [split; [intros v w; split; intros; vring|]; split; [intros v w; split; intros; vring|]; split; [intros v w; split; intros; vring|]; intros u v w r s z Hu Hv Hw i; specialize (Hu i); specialize (Hv i); specialize (Hw i); pose proof (Rabs_pos (u i)); pose proof (Rabs_pos (v i)); pose proof (Rabs_pos (w i)); vunfold; rewrite Rabs_R0; repeat apply Rmult_le_pos; lra|].
    intros v rho Hv Hr i. specialize (Hv i). pose proof (Rabs_pos (v i)). unfold taylor. destruct p as [|[|[|[|[|p]]]]]; try lia; cbn [Nat.leb]; vunfold; rewrite ?pow_1.
    + match goal with |- Rabs ?e <= _ => replace e with (c * v i) by ring end. rewrite Rabs_mult. apply Rmult_le_compat; try apply Rabs_pos; assumption.
    + match goal with |- Rabs ?e <= _ => replace e with 0 by ring end. rewrite Rabs_R0. apply Rmult_le_pos; [lra|]. apply pow_le. lra.
    + match goal with |- Rabs ?e <= _ => replace e with 0 by (field; lra) end. rewrite Rabs_R0. apply Rmult_le_pos; [lra|]. apply pow_le. lra.
    + match goal with |- Rabs ?e <= _ => replace e with 0 by (field; lra) end. rewrite Rabs_R0. apply Rmult_le_pos; [lra|]. apply pow_le. lra.
Qed.
Lemma decay_solution (F : vec unit -> vec unit) : (forall v i, F v i = - v i) -> solution_of F decay 0 1.
Proof.
  intros HF t i Ht. rewrite HF. unfold decay. replace (- exp (- t)) with (exp (- t) * -1) by ring.
  apply (derivable_pt_lim_comp (fun u => - u) exp); [apply (derivable_pt_lim_opp id); apply derivable_pt_lim_id|apply derivable_pt_lim_exp].
Qed.
Lemma unit_finite : finite_index unit. Proof. exists [tt]. intros []. left. reflexivity. Qed.
Example implicit_convergence_example :
  converges_with_order 2 (implicit_apply tab_QinZhang 2 (fun v : vec unit => 1 *v v)) decay 0 1 /\
  converges_with_order 3 (fun h x x' => exists st, imex_apply ars3_imp ars3_exp 3 h (fun v : vec unit => (1/2) *v v) (fun v => (1/2) *v v) (fun _ => vzero) (fun v => v) no_limiter st x x') decay 0 1.
Proof.
  split.
  - apply (implicit_runge_kutta_converges unit tab_QinZhang 2 (fun v => 1 *v v) decay 0 1 1); [right; split; reflexivity|apply unit_finite| |].
    + replace (fun v : vec unit => vopp (1 *v v)) with (fun v : vec unit => (-1) *v v) by (apply functional_extensionality; intros v; unfold vopp; vring). apply scaling_regular; [lia|]. rewrite Rabs_left; lra.
    + apply decay_solution. intros v i. unfold vopp. vunfold. ring.
  - pose proof (imex_schemes_converge unit 3 3 ars3_imp ars3_exp (fun v => (1/2) *v v) (fun v => (1/2) *v v) (fun _ => vzero) (fun v => v) decay 0 1 1) as H. cbv zeta in H. apply H; clear H; [cbn; tauto|apply unit_finite| | |].
    + replace (fun v : vec unit => vopp ((1/2) *v v)) with (fun v : vec unit => (-(1/2)) *v v) by (apply functional_extensionality; intros v; unfold vopp; vring). apply scaling_regular; [lia|]. rewrite Rabs_left; lra.
    + replace (fun v : vec unit => vopp ((1/2) *v v +v vzero)) with (fun v : vec unit => (-(1/2)) *v v) by (apply functional_extensionality; intros v; unfold vopp; vring). apply scaling_regular; [lia|]. rewrite Rabs_left; lra.
    + apply decay_solution. intros v i. unfold vopp. vunfold. field.
Qed.
