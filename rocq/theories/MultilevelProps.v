(** Properties C24, C25, C26 (and C22, C70 for multi-level schemes). *)
From Verif Require Import Base Vec Fml MultilevelSpec Multilevel MultilevelFacts Checkpoint CheckpointFacts.
Open Scope R_scope.

(** The right-hand side of  y' = F(y)  when the equation's residual is  y' + N(y). *)
Notation F_of N := (rhs_of N).

(** Steps after start-up. *)
Lemma steady {I} c order dt (N : vec I -> vec I) X it x_in x_out it' :
  (nlevels c order - 1 <= it)%nat ->
  ml_apply c order dt N X it x_in x_out it' <->
  it' = it /\ exists f, self_res c order dt X x_in x_out = Some f /\ assemble N vzero f = vzero.
Proof.
  intros H. unfold ml_apply. replace (it <? nlevels c order - 1)%nat with false by (symmetry; apply Nat.ltb_ge; exact H).
  tauto.
Qed.
Lemma starting {I} c order dt (N : vec I -> vec I) X it x_in x_out it' :
  (it < nlevels c order - 1)%nat ->
  ml_apply c order dt N X it x_in x_out it' <->
  it' = S it /\ exists f, self_res0 c dt X x_in x_out = Some f /\ assemble N vzero f = vzero.
Proof.
  intros H. unfold ml_apply. replace (it <? nlevels c order - 1)%nat with true by (symmetry; apply Nat.ltb_lt; exact H).
  tauto.
Qed.
Ltac some_iff :=
  let f := fresh in let E := fresh in let G := fresh in
  split; [intros [_ (f & E & G)]; cbn in E; injection E as <-; exact G
         |intros G; split; [reflexivity|]; eexists; split; [reflexivity|exact G]].

(** C24.  Once started, BDF2 solves the BDF2 equation, Adams-Bashforth (order 1-4) and
    Adams-Moulton (order 1-3) the standard Adams equations, for every right-hand side,
    step and levels y_(n-k+1), ..., y_n. *)
Theorem multistep_is_textbook :
  forall (I : Type) (N : vec I -> vec I) (dt : R) (X : vec I) (x_out : vec I),
  (forall it y0 y1, (1 <= it)%nat ->
     ml_apply CBDF2 0 dt N X it [y0; y1] x_out it <-> bdf2_step (F_of N) dt y0 y1 x_out) /\
  (forall k it ys, (1 <= k <= 4)%nat -> (k - 1 <= it)%nat ->
     ml_apply CAB k dt N X it (map ys (rev (seq 0 k))) x_out it <->
     adams_step k (fun m => nth m (ab_coefficients k) 0) 0 (F_of N) dt ys x_out) /\
  (forall k it ys, (1 <= k <= 3)%nat -> (k - 1 <= it)%nat ->
     ml_apply CAM k dt N X it (map ys (rev (seq 0 k))) x_out it <->
     adams_step k (fun m => nth m (snd (am_coefficients k)) 0) (fst (am_coefficients k)) (F_of N) dt ys x_out).
Proof.
  intros I N dt X xo. split; [|split].
  - intros it y0 y1 H. rewrite steady by (cbn; lia). rewrite <- (bdf2_res_iff N dt X). some_iff.
  - intros k it ys Hk H. rewrite steady by (cbn; lia).
    etransitivity; [|etransitivity; [apply (ab_res_iff N dt X k (map ys (rev (seq 0 k))) xo); [lia|rewrite map_length, rev_length, seq_length; reflexivity]|]].
    + some_iff.
    + assert (C : k = 1%nat \/ k = 2%nat \/ k = 3%nat \/ k = 4%nat) by lia.
      etransitivity; [apply adams_step_ext|apply adams_step_levels; [lia|]].
      * intros m Hm. destruct C as [->|[->|[->| ->]]]; do 4 (destruct m as [|m]; [first [lia|cbn; lra]|]); lia.
      * intros m Hm. destruct C as [->|[->|[->| ->]]]; do 4 (destruct m as [|m]; [first [lia|reflexivity]|]); lia.
  - intros k it ys Hk H. rewrite steady by (cbn; lia).
    etransitivity; [|etransitivity; [apply (am_res_iff N dt X k (map ys (rev (seq 0 k))) xo); [lia|rewrite map_length, rev_length, seq_length; reflexivity]|]].
    + some_iff.
    + assert (C : k = 1%nat \/ k = 2%nat \/ k = 3%nat) by lia.
      replace (fst (am_coefficients k)) with (am_bl k) by (destruct C as [->|[->| ->]]; reflexivity).
      etransitivity; [apply adams_step_ext|apply adams_step_levels; [lia|]].
      * intros m Hm. destruct C as [->|[->| ->]]; do 3 (destruct m as [|m]; [first [lia|cbn; lra]|]); lia.
      * intros m Hm. destruct C as [->|[->| ->]]; do 3 (destruct m as [|m]; [first [lia|reflexivity]|]); lia.
Qed.
Print Assumptions multistep_is_textbook.

(** C24.  dpoly is the time derivative of poly, so poly_solution says that the
    polynomial solves the differential equation. *)
Theorem poly_solution_means_solution :
  forall (I : Type) (q : nat) (c : nat -> vec I) (F : vec I -> vec I), poly_solution q c F ->
  forall t i, derivable_pt_lim (fun u => poly q c u i) t (F (poly q c t) i).
Proof. intros I q c F H t i. rewrite H. apply dpoly_derivative. Qed.
Print Assumptions poly_solution_means_solution.

Ltac exact_poly := unfold poly, dpoly; cbn [vsum]; apply functional_extensionality; intros ?; vunfold;
  cbn [INR pow]; try field; try lra.

(** C24.  If a polynomial of degree at most the order solves the equation, its exact
    values satisfy the scheme: BDF2 (2), Adams-Bashforth k = 1..4 (k), Adams-Moulton
    "order" k = 1..3 (k + 1). *)
Theorem multistep_exact_for_polynomials :
  forall (I : Type) (N : vec I -> vec I) (dt t : R) (X : vec I) (c : nat -> vec I),
  (poly_solution 2 c (F_of N) -> forall it, (1 <= it)%nat ->
     ml_apply CBDF2 0 dt N X it [poly 2 c (t - dt); poly 2 c t] (poly 2 c (t + dt)) it) /\
  (forall k, (1 <= k <= 4)%nat -> poly_solution k c (F_of N) -> forall it, (k - 1 <= it)%nat ->
     ml_apply CAB k dt N X it (map (fun m => poly k c (t - INR m * dt)) (rev (seq 0 k))) (poly k c (t + dt)) it) /\
  (forall k, (1 <= k <= 3)%nat -> poly_solution (S k) c (F_of N) -> forall it, (k - 1 <= it)%nat ->
     ml_apply CAM k dt N X it (map (fun m => poly (S k) c (t - INR m * dt)) (rev (seq 0 k))) (poly (S k) c (t + dt)) it).
Proof.
  intros I N dt t X c. split; [|split].
  - intros H it Hit. apply (proj1 (multistep_is_textbook I N dt X _)); [exact Hit|].
    unfold bdf2_step. rewrite H. exact_poly.
  - intros k Hk H it Hit. apply (proj1 (proj2 (multistep_is_textbook I N dt X _))); [exact Hk|exact Hit|].
    unfold adams_step.
    rewrite (vsum_ext k _ (fun m => nth m (ab_coefficients k) 0 *v dpoly k c (t - INR m * dt))) by (intros; rewrite H; reflexivity).
    assert (C : k = 1%nat \/ k = 2%nat \/ k = 3%nat \/ k = 4%nat) by lia.
    destruct C as [->|[->|[->| ->]]]; cbn [ab_coefficients nth]; exact_poly.
  - intros k Hk H it Hit. apply (proj2 (proj2 (multistep_is_textbook I N dt X _))); [exact Hk|exact Hit|].
    unfold adams_step. rewrite H.
    rewrite (vsum_ext k _ (fun m => nth m (snd (am_coefficients k)) 0 *v dpoly (S k) c (t - INR m * dt))) by (intros; rewrite H; reflexivity).
    assert (C : k = 1%nat \/ k = 2%nat \/ k = 3%nat) by lia.
    destruct C as [->|[->| ->]]; cbn [am_coefficients nth fst snd]; exact_poly.
Qed.
Print Assumptions multistep_exact_for_polynomials.

(** C24 fails for Adams-Bashforth of order 5: its weights add up to 1720/720, so on
    y' = 1 (I = unit) a step of size dt advances y by 43/18 dt. *)
Definition vec1 := vec unit.
Definition v1 (a : R) : vec1 := fun _ => a.
Theorem adams_bashforth_5_refuted :
  forall (dt : R) (X y : vec1) (it : nat) (ys : nat -> vec1) (x_out : vec1), (4 <= it)%nat ->
  (* y' = 1, i.e. N = -1 *)
  ml_apply CAB 5 dt (fun _ => v1 (-1)) X it (map ys (rev (seq 0 5))) x_out it <->
  x_out = ys 0%nat +v v1 (43 / 18 * dt).
Proof.
  intros dt X y it ys xo Hit. rewrite steady by (cbn; lia).
  etransitivity; [|etransitivity; [apply (ab_res_iff (fun _ => v1 (-1)) dt X 5 (map ys (rev (seq 0 5))) xo); [lia|reflexivity]|]].
  - some_iff.
  - unfold adams_step. cbn.
    match goal with |- xo = ?a <-> xo = ?b => replace a with b; [tauto|] end.
    unfold back, level, rhs_of, v1. cbn. vfin.
Qed.
Print Assumptions adams_bashforth_5_refuted.

(** ... whereas the standard weights add up to one. *)
Example ab5_standard_weights : rsum 5 (fun m => nth m (ab_coefficients 5) 0) = 1.
Proof. cbn. lra. Qed.

(** C24 fails for Adams-Moulton "order" 4: the weights add up to 730/720. *)
Theorem adams_moulton_4_refuted :
  forall (dt : R) (X y : vec1) (it : nat) (ys : nat -> vec1) (x_out : vec1), (3 <= it)%nat ->
  ml_apply CAM 4 dt (fun _ => v1 (-1)) X it (map ys (rev (seq 0 4))) x_out it <->
  x_out = ys 0%nat +v v1 (73 / 72 * dt).
Proof.
  intros dt X y it ys xo Hit. rewrite steady by (cbn; lia).
  etransitivity; [|etransitivity; [apply (am_res_iff (fun _ => v1 (-1)) dt X 4 (map ys (rev (seq 0 4))) xo); [lia|reflexivity]|]].
  - some_iff.
  - unfold adams_step. cbn.
    match goal with |- xo = ?a <-> xo = ?b => replace a with b; [tauto|] end.
    unfold back, level, rhs_of, v1. cbn. vfin.
Qed.
Print Assumptions adams_moulton_4_refuted.
Example am4_standard_weights : fst (am_coefficients 4) + rsum 4 (fun m => nth m (snd (am_coefficients 4)) 0) = 1.
Proof. cbn. lra. Qed.

(** C24.  The start-up steps are forward Euler (Adams-Bashforth, Leapfrog), backward
    Euler (BDF2) or the trapezium rule (Adams-Moulton), and add one to the counter. *)
Theorem startup_steps :
  forall (I : Type) (N : vec I -> vec I) (dt : R) (X : vec I) (x_out : vec I),
  (forall y0 y1, ml_apply CBDF2 0 dt N X 0 [y0; y1] x_out 1 <-> backward_euler_step (F_of N) dt y1 x_out) /\
  (forall y0 y1, ml_apply CLeapfrog 0 dt N X 0 [y0; y1] x_out 1 <-> forward_euler_step (F_of N) dt y1 x_out) /\
  (forall k it ys y, (it < k - 1)%nat ->
     ml_apply CAB k dt N X it (ys ++ [y]) x_out (S it) <-> forward_euler_step (F_of N) dt y x_out) /\
  (forall k it ys y, (it < k - 1)%nat ->
     ml_apply CAM k dt N X it (ys ++ [y]) x_out (S it) <-> trapezium_step (F_of N) dt y x_out).
Proof.
  intros I N dt X xo. split; [|split; [|split]].
  - intros y0 y1. rewrite starting by (cbn; lia). rewrite <- (bdf2_res0_iff N dt X). some_iff.
  - intros y0 y1. rewrite starting by (cbn; lia). rewrite <- (leapfrog_res0_iff N dt X). some_iff.
  - intros k it ys y H. rewrite starting by (cbn; lia).
    pose proof (ab_res0_iff N dt X (ys ++ [y]) xo) as E. rewrite (last_last ys y vzero : newest (ys ++ [y]) = y) in E.
    rewrite <- E. some_iff.
  - intros k it ys y H. rewrite starting by (cbn; lia).
    pose proof (am_res0_iff N dt X (ys ++ [y]) xo) as E. rewrite (last_last ys y vzero : newest (ys ++ [y]) = y) in E.
    rewrite <- E. some_iff.
Qed.
Print Assumptions startup_steps.

(** C26 fails: after start-up, Leapfrog takes forward-Euler steps from y_n, whatever
    y_(n-1) is, because its residual is defined under another name. *)
Theorem leapfrog_is_forward_euler_refuted :
  forall (I : Type) (N : vec I -> vec I) (dt : R) (X y0 y1 x_out : vec I) (it : nat), (1 <= it)%nat ->
  ml_apply CLeapfrog 0 dt N X it [y0; y1] x_out it <-> forward_euler_step (F_of N) dt y1 x_out.
Proof.
  intros I N dt X y0 y1 xo it H. rewrite steady by (cbn; lia). rewrite <- (base_res_iff N dt X). some_iff.
Qed.
Print Assumptions leapfrog_is_forward_euler_refuted.

(** ... so the leapfrog equation fails, e.g. for y' = 0, y0 = 0, y1 = 1. *)
Theorem leapfrog_refuted :
  exists (N : vec1 -> vec1) (X y0 y1 x_out : vec1),
    ml_apply CLeapfrog 0 1 N X 1 [y0; y1] x_out 1 /\ ~ leapfrog_step (F_of N) 1 y0 y1 x_out.
Proof.
  exists (fun _ => v1 0), (v1 0), (v1 0), (v1 1), (v1 1). split.
  - apply leapfrog_is_forward_euler_refuted; [lia|]. unfold forward_euler_step, rhs_of, v1. vfin.
  - unfold leapfrog_step, rhs_of, v1. intros H. apply (f_equal (fun v => v tt)) in H. vunfold. lra.
Qed.
Print Assumptions leapfrog_refuted.

(** C26.  The residual written in the class (never used) does state the leapfrog
    equation, which is exact for polynomials of degree 2. *)
Theorem leapfrog_unused_residual_partial :
  forall (I : Type) (N : vec I -> vec I) (dt t : R) (X : vec I),
  (forall y0 y1 y2, assemble N vzero (leapfrog_rhs dt X y0 y1 y2) = vzero <-> leapfrog_step (F_of N) dt y0 y1 y2) /\
  (forall c, poly_solution 2 c (F_of N) -> leapfrog_step (F_of N) dt (poly 2 c (t - dt)) (poly 2 c t) (poly 2 c (t + dt))).
Proof.
  intros I N dt t X. split; [intros; apply leapfrog_rhs_iff|].
  intros c H. unfold leapfrog_step. rewrite H. exact_poly.
Qed.
Print Assumptions leapfrog_unused_residual_partial.

(** C24.  A whole run is not exact even for quadratic solutions, because of the
    start-up step: y' = (2 y2, 1) has the solution (t^2, t). *)
Definition quadF (v : vec bool) : vec bool := fun b => if b then - (2 * v false) else -1.
Definition quadc (j : nat) : vec bool := fun b => if b then (if Nat.eqb j 2 then 1 else 0) else (if Nat.eqb j 1 then 1 else 0).
Theorem startup_step_not_exact_refuted :
  poly_solution 2 quadc (F_of quadF) /\
  forall X x_out, ml_apply CAB 2 1 quadF X 0 [poly 2 quadc 0; poly 2 quadc 0] x_out 1 -> x_out <> poly 2 quadc 1.
Proof.
  split.
  - intros t. unfold rhs_of, quadF, poly, dpoly, quadc. cbn [vsum]. apply functional_extensionality; intros [|]; vunfold; cbn; ring.
  - intros X xo H E. apply (proj1 (proj2 (proj2 (startup_steps bool quadF 1 X xo))) 2%nat 0%nat [poly 2 quadc 0]) in H; [|lia].
    unfold forward_euler_step in H. rewrite E in H. apply (f_equal (fun v => v true)) in H.
    unfold rhs_of, quadF, poly, quadc in H. cbn in H. vunfold. lra.
Qed.
Print Assumptions startup_step_not_exact_refuted.

(** C25.  For every k-level scheme (any start-up solve, any multi-level solve), every
    simulation from a fresh start and any number of interruptions and pick-ups: the
    field y(m) after m steps is the start-up step of y(m-1) for m <= k-1 and the
    formula of the last k fields for m >= k. *)
Theorem startup_exactly_first_steps :
  forall (V T : Type) (advance : T -> T) (k : nat) (start : V -> V) (formula : list V -> V) (d : V)
         (s0 fresh : sim V T),
  (1 <= k)%nat -> length (prev s0) = k -> startup s0 = 0%nat ->
  length (prev fresh) = k -> startup fresh = 0%nat ->
  let scheme := ml_scheme k (fun l => start (last l d)) formula in
  let y m := new (niter m (sim_step advance scheme) s0) in
  (y 0%nat = new s0) /\
  (forall m, (1 <= m <= k - 1)%nat -> y m = start (y (m - 1)%nat)) /\
  (forall m, (k <= m)%nat -> y m = formula (map y (seq (m - k) k))) /\
  (forall segments M,
     new (niter M (sim_step advance scheme) (interrupted V T advance scheme true fresh s0 segments))
     = y (list_sum segments + M)%nat).
Proof.
  intros V T advance k start formula d s0 fresh Hk Hl Hc Hf Hs scheme y.
  split; [reflexivity|split; [|split]].
  - intros m Hm. destruct m as [|m]; [lia|]. replace (S m - 1)%nat with m by lia.
    unfold y, scheme. pose proof (step_value V T advance k start formula s0 d Hk Hl Hc m) as E. unfold yseq in E.
    rewrite E. replace (m <? k - 1)%nat with true by (symmetry; apply Nat.ltb_lt; lia). reflexivity.
  - intros m Hm. destruct m as [|m]; [lia|].
    unfold y, scheme. pose proof (step_value V T advance k start formula s0 d Hk Hl Hc m) as E. unfold yseq in E.
    rewrite E. replace (m <? k - 1)%nat with false by (symmetry; apply Nat.ltb_ge; lia). reflexivity.
  - intros segs M.
    assert (H : obs V T (niter M (sim_step advance scheme) (interrupted V T advance scheme true fresh s0 segs))
            = obs V T (niter (list_sum segs + M) (sim_step advance scheme) s0)).
    { apply interrupted_exact; [discriminate| | |].
      - destruct (prev s0); [cbn in Hl; lia|discriminate].
      - congruence.
      - congruence. }
    unfold obs in H. injection H as H _ _ _. exact H.
Qed.
Print Assumptions startup_exactly_first_steps.

(** A three-level scheme (k = 3) on numbers: start-up x+1, formula: sum of the three. *)
Example startup_example :
  let scheme := ml_scheme 3 (fun l => S (last l O)) list_sum in
  map (fun m => new (niter m (sim_step S scheme) (mk_sim [0;0;0] 5 0 1 0)))%nat (seq 0 6) = [5; 6; 7; 18; 31; 56]%nat.
Proof. reflexivity. Qed.

(** Construction: which orders and options are accepted. *)
Theorem multistep_construction :
  forall (order : Z) (o : adv_options),
  let refused := o = EmbeddedDG \/ o = Recovery in
  ((exists k, ab_construct order o = Ok k) <-> (1 <= order <= 5)%Z /\ ~ refused) /\
  ((exists k, am_construct order o = Ok k) <-> (1 <= order <= 4)%Z /\ ~ refused) /\
  (ml_construct o = Ok tt <-> ~ refused).
Proof.
  intros order o refused. subst refused. unfold ab_construct, am_construct.
  split; [|split].
  - destruct ((order >? 5)%Z || (order <? 1)%Z) eqn:E.
    + apply Bool.orb_true_iff in E. rewrite Z.gtb_lt, Z.ltb_lt in E. split; [intros [? H]; discriminate|lia].
    + apply Bool.orb_false_iff in E. rewrite Z.gtb_ltb, !Z.ltb_ge in E.
      destruct o; cbn; split; try (intros [? H]; discriminate); try (intros [? H]; exfalso; tauto);
        (intros _; split; [lia|intros [H|H]; discriminate]) || (intros _; eexists; reflexivity).
  - destruct ((order >? 4)%Z || (order <? 1)%Z) eqn:E.
    + apply Bool.orb_true_iff in E. rewrite Z.gtb_lt, Z.ltb_lt in E. split; [intros [? H]; discriminate|lia].
    + apply Bool.orb_false_iff in E. rewrite Z.gtb_ltb, !Z.ltb_ge in E.
      destruct o; cbn; split; try (intros [? H]; discriminate); try (intros [? H]; exfalso; tauto);
        (intros _; split; [lia|intros [H|H]; discriminate]) || (intros _; eexists; reflexivity).
  - destruct o; cbn; split; try discriminate; try tauto; intros _; intros [H|H]; discriminate.
Qed.
Print Assumptions multistep_construction.
