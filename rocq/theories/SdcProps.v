(** Properties C33 and C36: spectral deferred correction. *)
From Verif Require Import Base Vec Sdc.
Open Scope R_scope.

(** The right-hand side of the differential equation dy/dt = F(y). *)
Definition F_of {I} (Li Le Ls : vec I -> vec I) (y : vec I) : vec I := (-1) *v (Li y +v Le y +v Ls y).

(** Specification: the collocation equations with weights q (zero-to-node). *)
Definition collocation {I} (M : nat) (q : nat -> nat -> R) (F : vec I -> vec I) (y0 : vec I) (Y : nat -> vec I) : Prop :=
  forall m, (m < M)%nat -> Y (S m) = y0 +v vsum M (fun j => q m j *v F (Y (S j))).
(** The node-to-node matrix of q: differences of consecutive rows. *)
Definition n2n (q : nat -> nat -> R) (m j : nat) : R := match m with O => q O j | S p => q m j - q p j end.

(** Every correction matrix of the kinds documented for the explicit part that makes the
    sweep well defined: strictly lower triangular. *)
Definition strictly_lower (M : nat) (A : nat -> nat -> R) : Prop := forall m i, (m <= i < M)%nat -> A m i = 0.

Lemma vsum_F {I} M (w : nat -> R) (Li Le Ls : vec I -> vec I) (U : nat -> vec I) :
  vsum M (fun j => w j *v rhs Li Le Ls (U (S j))) = (-1) *v vsum M (fun j => w j *v F_of Li Le Ls (U (S j))).
Proof.
  rewrite <- vsum_scal. apply vsum_ext. intros k _. unfold rhs, F_of.
  generalize (Li (U (S k))) (Le (U (S k))) (Ls (U (S k))). intros. vring.
Qed.

(** With Unodes1 = Unodes the corrections vanish. *)
Lemma residual_at_fixed {I} M Qi Qe Li Le Ls m (Us : vec I) U Uold Qm :
  (strictly_lower M Qe \/ Uold = U) -> (m < M)%nat ->
  node_residual M Qi Qe Li Le Ls m Us U (current Uold U m) Qm (U (S m)) = U (S m) -v Us +v Qm.
Proof.
  intros HE Hm. unfold node_residual.
  assert (E1 : vsum m (fun i => Qi m i *v (Li (current Uold U m (S i)) -v Li (U (S i)))) = vzero).
  { apply vsum_0. intros k Hk. unfold current. replace (Nat.leb (S k) m) with true by (symmetry; apply Nat.leb_le; lia).
    generalize (Li (U (S k))). intros. vring. }
  assert (E2 : vsum M (fun i => Qe m i *v (Le (current Uold U m (S i)) -v Le (U (S i)))
                       +v Qe m i *v (Ls (current Uold U m (S i)) -v Ls (U (S i)))) = vzero).
  { apply vsum_0. intros k Hk. destruct (Nat.leb (S k) m) eqn:E.
    - unfold current. rewrite E. generalize (Le (U (S k))) (Ls (U (S k))). intros. vring.
    - destruct HE as [HE| ->].
      + apply Nat.leb_gt in E. rewrite (HE m k) by lia. vring.
      + unfold current. rewrite E. generalize (Le (U (S k))) (Ls (U (S k))). intros. vring. }
  rewrite E1, E2. generalize (Li (U (S m))). intros. vring.
Qed.

Lemma n2n_sum {I} M q (F : vec I -> vec I) (Y : nat -> vec I) m :
  vsum M (fun j => q (S m) j *v F (Y (S j))) =
  vsum M (fun j => q m j *v F (Y (S j))) +v vsum M (fun j => n2n q (S m) j *v F (Y (S j))).
Proof.
  rewrite <- vsum_add. apply vsum_ext. intros k _. unfold n2n. generalize (F (Y (S k))). intros. vring.
Qed.

(** C33.  Node values are left unchanged by a sweep exactly if they solve the collocation
    equations: in zero-to-node form with the matrix q, in node-to-node form with its row
    differences; for every M, every q, every Qdelta_imp, every strictly lower triangular
    Qdelta_exp (or any Qdelta_exp from the second sweep on, when Unodes1 holds the same
    values), and all operators. *)
Theorem sdc_fixed_iff_collocation_z2n :
  forall (I : Type) (M : nat) (q Qi Qe : nat -> nat -> R) (Li Le Ls : vec I -> vec I) (Uold U : nat -> vec I),
  (strictly_lower M Qe \/ Uold = U) ->
  sweep M q Qi Qe Li Le Ls Z2N Uold U U <-> collocation M q (F_of Li Le Ls) (U O) U.
Proof.
  intros I M q Qi Qe Li Le Ls Uold U HE. unfold sweep, collocation, quad. split.
  - intros [_ H] m Hm. specialize (H m Hm). rewrite residual_at_fixed in H by assumption. rewrite vsum_F in H.
    apply functional_extensionality; intros i. apply (f_equal (fun v => v i)) in H. vunfold. lra.
  - intros H. split; [reflexivity|]. intros m Hm. rewrite residual_at_fixed by assumption. rewrite vsum_F.
    specialize (H m Hm). apply functional_extensionality; intros i. apply (f_equal (fun v => v i)) in H. vunfold. lra.
Qed.
Print Assumptions sdc_fixed_iff_collocation_z2n.

Theorem sdc_fixed_iff_collocation_n2n :
  forall (I : Type) (M : nat) (q Qi Qe : nat -> nat -> R) (Li Le Ls : vec I -> vec I) (Uold U : nat -> vec I),
  (strictly_lower M Qe \/ Uold = U) ->
  sweep M (n2n q) Qi Qe Li Le Ls N2N Uold U U <-> collocation M q (F_of Li Le Ls) (U O) U.
Proof.
  intros I M q Qi Qe Li Le Ls Uold U HE. unfold sweep, collocation, quad.
  assert (G : (forall m, (m < M)%nat -> U (S m) = U m +v vsum M (fun j => n2n q m j *v F_of Li Le Ls (U (S j))))
              <-> (forall m, (m < M)%nat -> U (S m) = U O +v vsum M (fun j => q m j *v F_of Li Le Ls (U (S j))))).
  { split; intros H.
    - induction m as [|m IH]; intros Hm; [exact (H O Hm)|]. pose proof (H (S m) Hm) as H1. specialize (IH ltac:(lia)).
      pose proof (n2n_sum M q (F_of Li Le Ls) U m) as HN. apply functional_extensionality; intros i.
      apply (f_equal (fun v => v i)) in H1, IH, HN. vunfold. lra.
    - intros [|m] Hm; [exact (H O Hm)|]. pose proof (H (S m) Hm) as H1. pose proof (H m ltac:(lia)) as H2.
      pose proof (n2n_sum M q (F_of Li Le Ls) U m) as HN. apply functional_extensionality; intros i.
      apply (f_equal (fun v => v i)) in H1, H2, HN. vunfold. lra. }
  rewrite <- G. split.
  - intros [_ H] m Hm. specialize (H m Hm). rewrite residual_at_fixed in H by assumption. rewrite vsum_F in H.
    apply functional_extensionality; intros i. apply (f_equal (fun v => v i)) in H. vunfold. lra.
  - intros H. split; [reflexivity|]. intros m Hm. rewrite residual_at_fixed by assumption. rewrite vsum_F.
    specialize (H m Hm). apply functional_extensionality; intros i. apply (f_equal (fun v => v i)) in H. vunfold. lra.
Qed.
Print Assumptions sdc_fixed_iff_collocation_n2n.

(** C33.  If moreover every node solve has only one solution, k sweeps from collocation
    values return exactly these values, in either form. *)
Theorem sdc_keeps_collocation :
  forall (I : Type) (M k : nat) (form : formulation) (q Qi Qe : nat -> nat -> R) (Li Le Ls : vec I -> vec I) (Uold U U' : nat -> vec I),
  strictly_lower M Qe ->
  (forall m Y Z, (m < M)%nat -> Y +v Qi m m *v Li Y = Z +v Qi m m *v Li Z -> Y = Z) ->
  collocation M q (F_of Li Le Ls) (U O) U ->
  sweeps M (match form with N2N => n2n q | Z2N => q end) Qi Qe Li Le Ls form k Uold U U' ->
  forall m, (m <= M)%nat -> U' m = U m.
Proof.
  intros I M k form q Qi Qe Li Le Ls Uold U U' HE Hu HC.
  assert (HF : forall Uo, sweep M (match form with N2N => n2n q | Z2N => q end) Qi Qe Li Le Ls form Uo U U).
  { intros Uo. destruct form; [apply sdc_fixed_iff_collocation_n2n|apply sdc_fixed_iff_collocation_z2n]; auto. }
  assert (One : forall Uo V U1, (forall m, (m <= M)%nat -> V m = U m) ->
     sweep M (match form with N2N => n2n q | Z2N => q end) Qi Qe Li Le Ls form Uo V U1 -> forall m, (m <= M)%nat -> U1 m = U m).
  { intros Uo V U1 HV [H0 H]. induction m as [m IH] using lt_wf_ind. intros Hm. destruct m as [|m]; [rewrite H0; apply HV; lia|].
    specialize (H m ltac:(lia)). destruct (HF Uo) as [_ H']. specialize (H' m ltac:(lia)).
    assert (Eq : quad M (match form with N2N => n2n q | Z2N => q end) Li Le Ls V m = quad M (match form with N2N => n2n q | Z2N => q end) Li Le Ls U m).
    { unfold quad. apply vsum_ext. intros j Hj. rewrite HV by lia. reflexivity. }
    rewrite Eq in H. clear Eq. unfold node_residual in H, H'.
    assert (E1 : vsum m (fun i => Qi m i *v (Li (current Uo U1 m (S i)) -v Li (V (S i)))) = vsum m (fun i => Qi m i *v (Li (current Uo U m (S i)) -v Li (U (S i))))).
    { apply vsum_ext. intros j Hj. unfold current. destruct (Nat.leb_spec (S j) m); [|lia]. rewrite IH by lia. rewrite HV by lia. reflexivity. }
    assert (E2 : vsum M (fun i => Qe m i *v (Le (current Uo U1 m (S i)) -v Le (V (S i))) +v Qe m i *v (Ls (current Uo U1 m (S i)) -v Ls (V (S i))))
               = vsum M (fun i => Qe m i *v (Le (current Uo U m (S i)) -v Le (U (S i))) +v Qe m i *v (Ls (current Uo U m (S i)) -v Ls (U (S i))))).
    { apply vsum_ext. intros j Hj. unfold current. destruct (Nat.leb_spec (S j) m).
      - rewrite IH by lia. rewrite HV by lia. reflexivity.
      - rewrite (HE m j) by lia. vring. }
    rewrite E1, E2 in H. clear E1 E2. rewrite (HV (S m)) in H by lia.
    replace (match form with N2N => U1 m | Z2N => V O end) with (match form with N2N => U m | Z2N => U O end) in H
      by (destruct form; [symmetry; apply IH; lia|symmetry; apply HV; lia]).
    apply (Hu m); [lia|]. apply functional_extensionality; intros i.
    apply (f_equal (fun v => v i)) in H, H'. vunfold. lra. }
  revert Uold. assert (Gen : forall k Uo V, (forall m, (m <= M)%nat -> V m = U m) ->
    sweeps M (match form with N2N => n2n q | Z2N => q end) Qi Qe Li Le Ls form k Uo V U' -> forall m, (m <= M)%nat -> U' m = U m).
  { induction k0 as [|k0 IH]; intros Uo V HV H m Hm; cbn [sweeps] in H; [subst U'; apply HV; exact Hm|].
    destruct H as (U1 & H1 & H2). apply (IH U1 U1); [apply (One Uo V U1 HV H1)|exact H2|exact Hm]. }
  intros Uold H. apply (Gen k Uold U); auto.
Qed.
Print Assumptions sdc_keeps_collocation.

(** C33.  The final update returns y_n + sum of weights times F at the nodes: at a
    fixed point the collocation (implicit Runge-Kutta) solution. *)
Theorem sdc_final_update :
  forall (I : Type) (M : nat) (b : nat -> R) (Li Le Ls : vec I -> vec I) (U : nat -> vec I) (y : vec I),
  final_update M b Li Le Ls U y <-> y = U O +v vsum M (fun j => b j *v F_of Li Le Ls (U (S j))).
Proof.
  intros. unfold final_update, quad_final. rewrite vsum_F. split; intros H.
  - apply functional_extensionality; intros i. apply (f_equal (fun v => v i)) in H. vunfold. lra.
  - subst y. generalize (vsum M (fun j => b j *v F_of Li Le Ls (U (S j)))). intros. vring.
Qed.
Print Assumptions sdc_final_update.

(** A concrete sweep: implicit midpoint collocation (one Gauss node) for dy/dt = -y. *)
Example sdc_midpoint_example :
  let one := fun a : R => (fun _ : unit => a) in
  let U := fun n : nat => match n with O => one 3 | _ => one 2 end in
  sweep 1 (fun _ _ => 1/2) (fun _ _ => 1/2) (fun _ _ => 0) (fun y => y) (fun _ => vzero) (fun _ => vzero) Z2N (fun _ => vzero) U U /\
  strictly_lower 1 (fun _ _ => 0) /\
  final_update 1 (fun _ => 1) (fun y => y) (fun _ => vzero) (fun _ => vzero) U (one 1).
Proof.
  cbv zeta. split; [|split; [intros m i _; reflexivity|]].
  - apply sdc_fixed_iff_collocation_z2n; [left; intros m i _; reflexivity|]. intros [|m] Hm; [|lia]. cbn. unfold F_of. vfield.
  - apply sdc_final_update. cbn. unfold F_of. vring.
Qed.

(** C33 fails for a Qdelta_exp that is not strictly lower triangular (the documented
    option EXACT): the first sweep uses whatever the node array held before, so that the
    result depends on the previous time step.  One node, F(y) = -y explicit. *)
Theorem sdc_stale_nodes_refuted :
  forall (h : R), h <> 0 ->
  let one := fun a : R => (fun _ : unit => a) in
  let U := fun _ : nat => one 1 in
  forall old : R, exists U1,
    sweep 1 (fun _ _ => h) (fun _ _ => 0) (fun _ _ => h) (fun _ => vzero) (fun y => y) (fun _ => vzero) Z2N (fun _ => one old) U U1 /\
    U1 1%nat tt = 1 - h * old.
Proof.
  intros h Hh one U old. exists (fun n => match n with O => one 1 | _ => one (1 - h * old) end). split; [|reflexivity].
  split; [reflexivity|]. intros [|m] Hm; [|lia]. unfold node_residual, quad, current, rhs, U, one. cbn. vring.
Qed.
Print Assumptions sdc_stale_nodes_refuted.

(** C33 fails without the final update when the last node is not the end of the step
    (Gauss and Radau-left nodes, which the constructor accepts): for dy/dt = f constant the
    converged value is y_n + c_M dt f, c_M being the last node. *)
Theorem sdc_no_final_update_refuted :
  forall (I : Type) (M : nat) (q : nat -> nat -> R) (f : vec I) (U : nat -> vec I) (node : R),
  (0 < M)%nat -> rsum M (fun j => q (M - 1)%nat j) = node ->
  collocation M q (fun _ => f) (U O) U -> U M = U O +v node *v f.
Proof.
  intros I M q f U node HM Hn HC. specialize (HC (M - 1)%nat ltac:(lia)).
  replace (S (M - 1)) with M in HC by lia. rewrite HC, vsum_scal_const. f_equal. f_equal. exact Hn.
Qed.
Print Assumptions sdc_no_final_update_refuted.

(* ================= C36 ================= *)

Definition diagonal (M : nat) (A : nat -> nat -> R) : Prop := forall m i, (m < M)%nat -> (i < M)%nat -> i <> m -> A m i = 0.
Definition zero_matrix (M : nat) (A : nat -> nat -> R) : Prop := forall m i, (m < M)%nat -> (i < M)%nat -> A m i = 0.

(** C36.  With a diagonal implicit correction matrix and no explicit correction, k
    parallel sweeps started from the same initial guess on all ranks leave on rank r, in
    its own entry r+1, the value of the serial scheme at that node, for every k, however
    the array Unodes1 was filled before. *)
Theorem parallel_sdc_equals_serial :
  forall (I : Type) (M k : nat) (Q Qi Qe : nat -> nat -> R) (Li Le Ls : vec I -> vec I)
         (U Uold U' : nat -> vec I) (Z W' : nat -> nat -> vec I),
  diagonal M Qi -> zero_matrix M Qe ->
  (forall m Y Z, (m < M)%nat -> Y +v Qi m m *v Li Y = Z +v Qi m m *v Li Z -> Y = Z) ->
  sweeps M Q Qi Qe Li Le Ls Z2N k Uold U U' ->
  par_sweeps M Q Qi Qe Li Le Ls k (fun _ => U) Z W' ->
  forall r, (r < M)%nat -> W' r (S r) = U' (S r) /\ W' r O = U' O.
Proof.
  intros I M k Q Qi Qe Li Le Ls U Uold U' Z W' HD HZ Hu HS HP.
  assert (G : forall k U Uold W Z,
    (forall r, (r < M)%nat -> W r (S r) = U (S r) /\ W r O = U O) ->
    sweeps M Q Qi Qe Li Le Ls Z2N k Uold U U' -> par_sweeps M Q Qi Qe Li Le Ls k W Z W' ->
    forall r, (r < M)%nat -> W' r (S r) = U' (S r) /\ W' r O = U' O).
  { clear - HD HZ Hu. induction k as [|k IH]; intros U Uold W Z HW HS HP.
    - cbn in HS, HP. subst. exact HW.
    - cbn [sweeps par_sweeps] in HS, HP. destruct HS as (U1 & [S0 S1] & S2). destruct HP as (W1 & Z1 & P1 & P2).
      apply (IH U1 U1 W1 Z1); [|exact S2|exact P2]. intros r Hr. destruct (P1 r Hr) as (Pr & PZ & PW). cbv zeta in Pr.
      assert (Eq : vsum M (fun j => Q r j *v rhs Li Le Ls (W j (S j))) = quad M Q Li Le Ls U r).
      { unfold quad. apply vsum_ext. intros j Hj. rewrite (proj1 (HW j Hj)). reflexivity. }
      rewrite Eq in Pr. clear Eq. specialize (S1 r Hr). destruct (HW r Hr) as [Hrr Hr0]. split.
      + rewrite PW, Nat.eqb_refl. unfold node_residual in Pr, S1.
        rewrite (vsum_0 r) in Pr by (intros i Hi; rewrite (HD r i) by lia; vring).
        rewrite (vsum_0 r) in S1 by (intros i Hi; rewrite (HD r i) by lia; vring).
        rewrite (vsum_0 M) in Pr by (intros i Hi; rewrite (HZ r i) by lia; vring).
        rewrite (vsum_0 M) in S1 by (intros i Hi; rewrite (HZ r i) by lia; vring).
        rewrite Hrr, Hr0 in Pr. apply (Hu r); [exact Hr|]. apply functional_extensionality; intros x.
        apply (f_equal (fun v => v x)) in Pr, S1. vunfold. lra.
      + rewrite PW. cbn. rewrite Hr0. symmetry; exact S0. }
  apply (G k U Uold (fun _ => U) Z); auto.
Qed.
Print Assumptions parallel_sdc_equals_serial.

(** C36 fails for other correction matrices, which the constructor accepts: with backward
    Euler (lower triangular) rank 1 corrects with its own stale entry for node 0.  Two
    nodes, F(y) = -y implicit: a sweep of the serial scheme from the collocation solution
    does not move; the parallel one does. *)
Theorem parallel_sdc_nondiagonal_refuted :
  let one := fun a : R => (fun _ : unit => a) in
  let Q := fun m j : nat => match j with O => 1 | _ => 0 end in
  let Qi := fun m i : nat => if Nat.leb i m then 1 else 0 in
  let U := fun n : nat => match n with O => one 2 | _ => one 1 end in
  sweep 2 Q Qi (fun _ _ => 0) (fun y => y) (fun _ => vzero) (fun _ => vzero) Z2N (fun _ => vzero) U U /\
  exists W' Z', par_sweep 2 Q Qi (fun _ _ => 0) (fun y => y) (fun _ => vzero) (fun _ => vzero) (fun _ => U) (fun _ _ => vzero) W' Z' /\
    W' 1%nat 2%nat tt = 3 / 2.
Proof.
  cbv zeta. split.
  - apply sdc_fixed_iff_collocation_z2n; [left; intros m i _; reflexivity|]. intros m Hm.
    destruct m as [|[|m]]; [| |lia]; cbn; unfold F_of; vring.
  - exists (fun r i => if Nat.eqb i (S r) then (if Nat.eqb r 0 then (fun _ => 1) else (fun _ => 3/2)) else match i with O => (fun _ => 2) | _ => (fun _ => 1) end),
           (fun r i => if Nat.eqb i (S r) then (if Nat.eqb r 0 then (fun _ => 1) else (fun _ => 3/2)) else if Nat.eqb i 0 then (fun _ => 2) else vzero).
    split; [|reflexivity]. intros r Hr. destruct r as [|[|r]]; [| |lia].
    + split; [cbn; unfold node_residual, rhs; cbn; vfield|]. split.
      * intros i Hi. destruct (Nat.eqb_spec i 1); [lia|]. reflexivity.
      * intros i. destruct (Nat.eqb_spec i 1); [subst; reflexivity|]. reflexivity.
    + split; [cbn; unfold node_residual, rhs; cbn; vfield|]. split.
      * intros i Hi. destruct (Nat.eqb_spec i 2); [lia|]. reflexivity.
      * intros i. destruct (Nat.eqb_spec i 2); [subst; reflexivity|]. reflexivity.
Qed.
Print Assumptions parallel_sdc_nondiagonal_refuted.
