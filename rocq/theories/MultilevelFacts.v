From Verif Require Import Base Vec Fml MultilevelSpec Multilevel Checkpoint CheckpointFacts.
Open Scope R_scope.

Definition rhs_of {I} (N : vec I -> vec I) : vec I -> vec I := fun x => (-1) *v N x.

(** two vectors related by  u = v - w  vanish/agree together *)
Lemma veq_shift {I} (r x y : vec I) : r = x -v y -> (r = vzero <-> x = y).
Proof.
  intros ->; split; intros H.
  - apply functional_extensionality; intros i.
    assert (E : (x -v y) i = vzero i) by (rewrite H; reflexivity). unfold vsub, vzero in E. lra.
  - subst; vring.
Qed.
Lemma veq_scale {I} (a : R) (x y : vec I) : a <> 0 -> (a *v x = a *v y <-> x = y).
Proof.
  intros Ha; split; intros H; [|subst; reflexivity].
  apply functional_extensionality; intros i.
  assert (E : (a *v x) i = (a *v y) i) by (rewrite H; reflexivity). unfold vscal in E.
  apply Rmult_eq_reg_l with a; assumption.
Qed.

Ltac vfin := apply functional_extensionality; intros ?; vunfold; try field; try lra.

Section Facts.
  Context {I : Type}.
  Variables (N : vec I -> vec I) (dt : R) (X : vec I).
  Notation F := (rhs_of N).

  Lemma base_res_iff x1 xo : assemble N vzero (base_res dt X x1 xo) = vzero <-> forward_euler_step F dt x1 xo.
  Proof. apply veq_shift. unfold base_res, rhs_of. fml. vfin. Qed.
  Lemma bdf2_res0_iff x1 xo : assemble N vzero (bdf2_res0 dt X x1 xo) = vzero <-> backward_euler_step F dt x1 xo.
  Proof. apply veq_shift. unfold bdf2_res0, rhs_of. fml. vfin. Qed.
  Lemma bdf2_res_iff x0 x1 xo : assemble N vzero (bdf2_res dt X x0 x1 xo) = vzero <-> bdf2_step F dt x0 x1 xo.
  Proof. apply veq_shift. unfold bdf2_res, rhs_of. fml. vfin. Qed.
  Lemma leapfrog_rhs_iff x0 x1 xo : assemble N vzero (leapfrog_rhs dt X x0 x1 xo) = vzero <-> leapfrog_step F dt x0 x1 xo.
  Proof. apply veq_shift. unfold leapfrog_rhs, rhs_of. fml. vfin. Qed.
  Lemma leapfrog_res0_iff x1 xo : assemble N vzero (leapfrog_res0 dt X x1 xo) = vzero <-> forward_euler_step F dt x1 xo.
  Proof. apply veq_shift. unfold leapfrog_res0, rhs_of. fml. vfin. Qed.
  Lemma ab_res0_iff l xo : assemble N vzero (ab_res0 dt X l xo) = vzero <-> forward_euler_step F dt (newest l) xo.
  Proof. apply veq_shift. unfold ab_res0, rhs_of. fml. vfin. Qed.
  Lemma am_res0_iff l xo : assemble N vzero (am_res0 dt X l xo) = vzero <-> trapezium_step F dt (newest l) xo.
  Proof. apply veq_shift. unfold am_res0, rhs_of. fml. vfin. Qed.

  (** level m steps back *)
  Definition back (l : list (vec I)) (m : nat) : vec I := level l (length l - 1 - m).

  Ltac levels l H :=
    repeat (destruct l as [|? l]; [cbn in H; lia|]); destruct l; [|cbn in H; lia].

  Lemma ab_res_iff k l xo : (1 <= k <= 5)%nat -> length l = k ->
    assemble N vzero (ab_res dt X k l xo) = vzero <->
    adams_step k (fun m => nth (k - 1 - m) (ab_b k) 0) 0 F dt (back l) xo.
  Proof.
    intros Hk Hl. apply veq_shift.
    assert (C : k = 1%nat \/ k = 2%nat \/ k = 3%nat \/ k = 4%nat \/ k = 5%nat) by lia.
    destruct C as [->|[->|[->|[->| ->]]]];
    destruct l as [|a [|b [|c [|d [|e [|f l]]]]]]; try (cbn in Hl; lia);
    unfold ab_res, back, newest, level, coef, rhs_of; cbn; vfin.
  Qed.
  Lemma am_res_iff k l xo : (1 <= k <= 4)%nat -> length l = k ->
    assemble N vzero (am_res dt X k l xo) = vzero <->
    adams_step k (fun m => nth (k - 1 - m) (am_br k) 0) (am_bl k) F dt (back l) xo.
  Proof.
    intros Hk Hl. apply veq_shift.
    assert (C : k = 1%nat \/ k = 2%nat \/ k = 3%nat \/ k = 4%nat) by lia.
    destruct C as [->|[->|[->| ->]]];
    destruct l as [|a [|b [|c [|d [|e l]]]]]; try (cbn in Hl; lia);
    unfold am_res, back, newest, level, coef, rhs_of; cbn; vfin.
  Qed.
End Facts.

(** Weights enter only through their values. *)
Lemma adams_step_ext {I} k b b' bl (F : vec I -> vec I) h ys y1 :
  (forall m, (m < k)%nat -> b m = b' m) ->
  adams_step k b bl F h ys y1 <-> adams_step k b' bl F h ys y1.
Proof.
  intros H. unfold adams_step. rewrite (vsum_ext k _ (fun m => b' m *v F (ys m))); [tauto|].
  intros m Hm; rewrite H by exact Hm; reflexivity.
Qed.
Lemma adams_step_levels {I} k b bl (F : vec I -> vec I) h ys ys' y1 : (0 < k)%nat ->
  (forall m, (m < k)%nat -> ys m = ys' m) ->
  adams_step k b bl F h ys y1 <-> adams_step k b bl F h ys' y1.
Proof.
  intros Hk H. unfold adams_step. rewrite (H 0%nat Hk).
  rewrite (vsum_ext k _ (fun m => b m *v F (ys' m))); [tauto|].
  intros m Hm; rewrite H by exact Hm; reflexivity.
Qed.

(** dpoly is the derivative of poly. *)
Lemma derivable_pt_lim_rsum n (f g : nat -> R -> R) t :
  (forall j, (j < n)%nat -> derivable_pt_lim (f j) t (g j t)) ->
  derivable_pt_lim (fun u => rsum n (fun j => f j u)) t (rsum n (fun j => g j t)).
Proof.
  induction n as [|n IH]; intros H; cbn.
  - apply derivable_pt_lim_const.
  - apply (derivable_pt_lim_plus (fun u => rsum n (fun j => f j u)) (f n)); [apply IH; intros; apply H; lia|apply H; lia].
Qed.
Lemma dpoly_derivative {I} q (c : nat -> vec I) t i :
  derivable_pt_lim (fun u => poly q c u i) t (dpoly q c t i).
Proof.
  assert (E : forall u, poly q c u i = c 0%nat i + rsum q (fun j => u ^ (S j) * c (S j) i)).
  { intros u. unfold poly. induction q as [|q IH].
    - cbn. vunfold. ring.
    - change (vsum (S (S q)) (fun j : nat => u ^ j *v c j)) with (vsum (S q) (fun j : nat => u ^ j *v c j) +v u ^ S q *v c (S q)).
      unfold vadd at 1. rewrite IH. cbn [rsum]. unfold vscal. ring. }
  assert (D : derivable_pt_lim (fun u => c 0%nat i + rsum q (fun j => u ^ (S j) * c (S j) i)) t (0 + dpoly q c t i)).
  { unfold dpoly. rewrite vsum_at.
    apply (derivable_pt_lim_plus (fun _ => c 0%nat i)); [apply derivable_pt_lim_const|].
    apply (derivable_pt_lim_rsum q (fun j u => u ^ S j * c (S j) i) (fun j u => (INR (S j) * u ^ j *v c (S j)) i)).
    intros j _. unfold vscal.
    replace (INR (S j) * t ^ j * c (S j) i) with (c (S j) i * (INR (S j) * t ^ pred (S j))) by (cbn [pred]; ring).
    apply (derivable_pt_lim_ext (mult_real_fct (c (S j) i) (fun u => u ^ S j))).
    - intros u; unfold mult_real_fct; ring.
    - apply derivable_pt_lim_scal. apply derivable_pt_lim_pow. }
  rewrite Rplus_0_l in D. eapply derivable_pt_lim_ext; [|exact D]. intros u; symmetry; apply E.
Qed.

(* ---------------- start-up steps ---------------- *)
Section Startup.
  Variables (V T : Type) (advance : T -> T) (k : nat) (start : V -> V) (formula : list V -> V) (s0 : sim V T) (d : V).
  Hypothesis Hk : (1 <= k)%nat.
  Hypothesis Hlen : length (prev s0) = k.
  Hypothesis Hc : startup s0 = 0%nat.
  Notation sch := (ml_scheme k (fun l => start (last l d)) formula).
  Notation stp := (sim_step advance sch).
  Definition yseq (m : nat) : V := new (niter m stp s0).

  Lemma niter_S_out {A} n (f : A -> A) x : niter (S n) f x = f (niter n f x).
  Proof. revert x; induction n as [|n IH]; intros x; [reflexivity|]. cbn [niter] in *. rewrite <- IH. reflexivity. Qed.

  Lemma tl_map_seq {A} (f : nat -> A) a n : (0 < n)%nat ->
    (tl (map f (seq a n)) ++ [f (a + n)%nat])%list = map f (seq (S a) n).
  Proof.
    intros H. destruct n as [|n]; [lia|]. rewrite (seq_S n (S a)), map_app. cbn [seq map tl].
    replace (S a + n)%nat with (a + S n)%nat by lia. reflexivity.
  Qed.

  Lemma startup_inv m :
    startup (niter m stp s0) = Nat.min m (k - 1)%nat /\
    exists pre, length pre = (k - m)%nat /\
      prev (niter m stp s0) = (pre ++ map yseq (seq (m - k) (Nat.min m k)))%list.
  Proof.
    induction m as [|m [IHc (pre & Hp & IHp)]].
    - cbn [niter]. split; [rewrite Hc; reflexivity|]. exists (prev s0). cbn. rewrite app_nil_r. split; [lia|reflexivity].
    - rewrite niter_S_out. set (s := niter m stp s0) in *. unfold sim_step, ml_scheme.
      assert (Hprev : exists pre', length pre' = (k - S m)%nat /\
         (tl (prev s) ++ [new s])%list = (pre' ++ map yseq (seq (S m - k) (Nat.min (S m) k)))%list).
      { rewrite IHp. change (new s) with (yseq m). destruct (Nat.lt_ge_cases m k) as [L|G].
        - destruct pre as [|a pre]; [cbn in Hp; lia|]. exists pre. cbn in Hp. split; [lia|].
          cbn [tl app]. replace (m - k)%nat with 0%nat by lia. replace (S m - k)%nat with 0%nat by lia.
          rewrite !Nat.min_l by lia. rewrite seq_S, map_app, app_assoc. reflexivity.
        - destruct pre as [|a pre]; [|cbn in Hp; lia]. exists []. split; [cbn; lia|]. cbn [app].
          rewrite !Nat.min_r by lia. replace [yseq m] with [yseq (m - k + k)%nat] by (do 2 f_equal; lia). rewrite tl_map_seq by lia. do 2 f_equal; lia. }
      destruct Hprev as (pre' & Hp' & E).
      destruct (startup s <? k - 1)%nat eqn:L; cbn [prev startup].
      + apply Nat.ltb_lt in L. split; [rewrite IHc in *; lia|]. exists pre'; auto.
      + apply Nat.ltb_ge in L. split; [rewrite IHc in *; lia|]. exists pre'; auto.
  Qed.

  Lemma step_value m :
    yseq (S m) = if (m <? k - 1)%nat then start (yseq m) else formula (map yseq (seq (S m - k) k)).
  Proof.
    destruct (startup_inv m) as [HC _]. destruct (startup_inv (S m)) as [_ (pre & Hp & HP)].
    unfold yseq at 1. rewrite niter_S_out in *. set (s := niter m stp s0) in *.
    assert (E : (tl (prev s) ++ [new s])%list = prev (stp s)).
    { unfold sim_step. destruct (sch _ _ _ _); reflexivity. }
    rewrite HP in E. unfold sim_step, ml_scheme. rewrite HC.
    destruct (m <? k - 1)%nat eqn:L.
    - apply Nat.ltb_lt in L. assert (B : (Nat.min m (k - 1) <? k - 1)%nat = true) by (apply Nat.ltb_lt; lia).
      rewrite B. cbn [new]. rewrite last_last. reflexivity.
    - apply Nat.ltb_ge in L. assert (B : (Nat.min m (k - 1) <? k - 1)%nat = false) by (apply Nat.ltb_ge; lia).
      rewrite B. cbn [new]. rewrite E. destruct pre; [|cbn in Hp; lia]. cbn [app]. rewrite Nat.min_r by lia. reflexivity.
  Qed.
End Startup.
