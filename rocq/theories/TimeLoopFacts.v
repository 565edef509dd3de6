From Verif Require Import Base TimeLoopSpec TimeLoop.
From Coq Require Import Lqa Qround.
Local Open Scope Q_scope.

Section Facts.
  Variable X : Type.
  Variable update : X -> X.
  Variable timestep : Q -> nat -> X -> X.
  Notation body := (loop_body update timestep).
  Notation lp := (loop update timestep).

  Definition iter_body (dt : Q) (n : nat) (m : model X) : model X := niter n (body dt) m.

  Lemma iter_body_S dt n m : iter_body dt (S n) m = iter_body dt n (body dt m).
  Proof. reflexivity. Qed.

  Lemma loop_test_true dt tmax (m : model X) :
    loop_test dt tmax m = true <-> m_t m < tmax - (1#2) * dt.
  Proof.
    unfold loop_test. rewrite negb_true_iff.
    destruct (Qle_bool (tmax - (1#2) * dt) (m_t m)) eqn:E.
    - apply Qle_bool_iff in E; split; [discriminate|intros; lra].
    - split; [intros _|reflexivity].
      apply Qnot_le_lt; intros H; apply Qle_bool_iff in H; congruence.
  Qed.

  Lemma loop_test_false dt tmax (m : model X) :
    loop_test dt tmax m = false <-> tmax - (1#2) * dt <= m_t m.
  Proof.
    split; intros H.
    - apply Qnot_lt_le; intros Hlt; apply loop_test_true in Hlt; congruence.
    - destruct (loop_test dt tmax m) eqn:E; [|reflexivity].
      apply loop_test_true in E; lra.
  Qed.

  Lemma iter_t dt n m : m_t (iter_body dt n m) == m_t m + inject_Z (Z.of_nat n) * dt.
  Proof.
    revert m; induction n as [|n IH]; intros m.
    - unfold iter_body; simpl; ring.
    - rewrite iter_body_S, IH. unfold loop_body; cbn [m_t].
      rewrite Nat2Z.inj_succ, <- Z.add_1_r, inject_Z_plus; ring.
  Qed.

  Lemma iter_step dt n m : m_step (iter_body dt n m) = (m_step m + n)%nat.
  Proof.
    revert m; induction n as [|n IH]; intros m; [unfold iter_body; simpl; lia|].
    rewrite iter_body_S, IH; unfold loop_body; cbn [m_step]; lia.
  Qed.

  Lemma iter_dumps_length dt n m :
    length (m_dumps (iter_body dt n m)) = (length (m_dumps m) + n)%nat.
  Proof.
    revert m; induction n as [|n IH]; intros m; [unfold iter_body; simpl; lia|].
    rewrite iter_body_S, IH; unfold loop_body; cbn [m_dumps].
    rewrite app_length; simpl; lia.
  Qed.

  (** The dump log is exactly one entry per step holding the post-step state. *)
  Lemma iter_dumps dt n m :
    m_dumps (iter_body dt n m) =
    (m_dumps m ++ map (fun k => let k' := iter_body dt (S k) m in
                               (m_t k', m_step k', m_x k')) (seq 0 n))%list.
  Proof.
    revert m; induction n as [|n IH]; intros m.
    - simpl; rewrite app_nil_r; reflexivity.
    - rewrite iter_body_S, IH.
      rewrite <- cons_seq. cbn [map].
      rewrite <- seq_shift, map_map.
      unfold loop_body at 1; cbn [m_dumps].
      rewrite <- app_assoc; f_equal; cbn [app]; f_equal.
  Qed.

  (** Characterisation of the fuelled loop. *)
  Lemma loop_some fuel dt tmax m m' :
    lp fuel dt tmax m = Some m' ->
    exists n, m' = iter_body dt n m /\ loop_test dt tmax m' = false /\
      forall k, (k < n)%nat -> loop_test dt tmax (iter_body dt k m) = true.
  Proof.
    revert m; induction fuel as [|f IH]; intros m H; cbn [loop] in H;
      destruct (loop_test dt tmax m) eqn:E; try discriminate.
    - injection H as <-. exists 0%nat; split; [reflexivity|]; split; [exact E|lia].
    - destruct (IH _ H) as (n & H1 & H2 & H3).
      exists (S n); rewrite iter_body_S; split; [exact H1|]; split; [exact H2|].
      intros k Hk; destruct k as [|k]; [exact E|].
      rewrite iter_body_S; apply H3; lia.
    - injection H as <-. exists 0%nat; split; [reflexivity|]; split; [exact E|lia].
  Qed.

  Lemma loop_enough n : forall fuel dt tmax m,
    (n <= fuel)%nat -> loop_test dt tmax (iter_body dt n m) = false ->
    (forall k, (k < n)%nat -> loop_test dt tmax (iter_body dt k m) = true) ->
    lp fuel dt tmax m = Some (iter_body dt n m).
  Proof.
    induction n as [|n IH]; intros fuel dt tmax m Hf Hstop Hgo.
    - unfold iter_body in *; simpl in *. destruct fuel; cbn [loop]; rewrite Hstop; reflexivity.
    - destruct fuel as [|f]; [lia|]. cbn [loop].
      assert (E0 : loop_test dt tmax m = true) by (apply (Hgo 0%nat); lia). rewrite E0, iter_body_S in *.
      apply IH; [lia|exact Hstop|].
      intros k Hk. specialize (Hgo (S k)); rewrite iter_body_S in Hgo; apply Hgo; lia.
  Qed.

  Lemma fuel_suffices dt t tmax :
    0 < dt -> tmax - (1#2)*dt <= t + inject_Z (Z.of_nat (loop_fuel t tmax dt)) * dt.
  Proof.
    intros Hdt. unfold loop_fuel.
    set (c := Qceiling ((tmax - t) / dt)).
    assert (Hc : (tmax - t) / dt <= inject_Z c) by apply Qle_ceiling.
    assert (Hz : inject_Z c <= inject_Z (Z.of_nat (Z.to_nat c))).
    { rewrite <- Zle_Qle; lia. }
    assert (H : (tmax - t) / dt * dt <= inject_Z (Z.of_nat (Z.to_nat c)) * dt).
    { apply Qmult_le_compat_r; lra. }
    assert (E : (tmax - t) / dt * dt == tmax - t) by (field; lra).
    rewrite E in H. lra.
  Qed.

  (** Least index at which the loop test fails. *)
  Lemma least_stop dt tmax m : forall N,
    loop_test dt tmax (iter_body dt N m) = false ->
    exists n, (n <= N)%nat /\ loop_test dt tmax (iter_body dt n m) = false /\
      forall k, (k < n)%nat -> loop_test dt tmax (iter_body dt k m) = true.
  Proof.
    induction N as [N IH] using lt_wf_ind; intros HN.
    destruct (Nat.eq_dec N 0) as [->|Hne].
    { exists 0%nat; split; [lia|]; split; [exact HN|lia]. }
    destruct (existsb (fun k => negb (loop_test dt tmax (iter_body dt k m))) (seq 0 N)) eqn:E.
    - apply existsb_exists in E as (k & Hk & Hf). apply in_seq in Hk.
      rewrite negb_true_iff in Hf.
      destruct (IH k) as (n & H1 & H2 & H3); [lia|exact Hf|].
      exists n; split; [lia|]; auto.
    - exists N; split; [lia|]; split; [exact HN|]. intros k Hk.
      destruct (loop_test dt tmax (iter_body dt k m)) eqn:Ek; [reflexivity|].
      assert (existsb (fun k => negb (loop_test dt tmax (iter_body dt k m))) (seq 0 N) = true).
      { apply existsb_exists; exists k; split; [apply in_seq; lia|rewrite Ek; reflexivity]. }
      congruence.
  Qed.

  Lemma loop_total dt tmax m :
    0 < dt -> exists m', lp (loop_fuel (m_t m) tmax dt) dt tmax m = Some m'.
  Proof.
    intros Hdt.
    destruct (least_stop dt tmax m (loop_fuel (m_t m) tmax dt)) as (n & H1 & H2 & H3).
    - apply loop_test_false. rewrite iter_t. apply fuel_suffices; exact Hdt.
    - eexists; eapply loop_enough; eassumption.
  Qed.

  (** Main characterisation. *)
  Lemma loop_spec dt tmax m :
    0 < dt ->
    exists n, lp (loop_fuel (m_t m) tmax dt) dt tmax m = Some (iter_body dt n m) /\
      tmax - (1#2) * dt <= m_t m + inject_Z (Z.of_nat n) * dt /\
      (forall k, (k < n)%nat -> m_t m + inject_Z (Z.of_nat k) * dt < tmax - (1#2) * dt).
  Proof.
    intros Hdt. destruct (loop_total dt tmax m Hdt) as (m' & Hm').
    destruct (loop_some _ _ _ _ _ Hm') as (n & -> & Hstop & Hgo).
    exists n; split; [exact Hm'|]; split.
    - rewrite <- iter_t; apply loop_test_false; exact Hstop.
    - intros k Hk. rewrite <- iter_t; apply loop_test_true, Hgo, Hk.
  Qed.

  (** Any amount of fuel beyond the needed one gives the same result. *)
  Lemma loop_fuel_irrelevant fuel dt tmax m m' :
    0 < dt -> lp fuel dt tmax m = Some m' ->
    lp (loop_fuel (m_t m) tmax dt) dt tmax m = Some m'.
  Proof.
    intros Hdt H. destruct (loop_total dt tmax m Hdt) as (m2 & H2).
    rewrite H2; f_equal.
    destruct (loop_some _ _ _ _ _ H) as (n & -> & Hs & Hg).
    destruct (loop_some _ _ _ _ _ H2) as (n2 & -> & Hs2 & Hg2).
    destruct (Nat.lt_trichotomy n n2) as [Hlt|[->|Hlt]]; [|reflexivity|].
    - rewrite Hg2 in Hs by exact Hlt; discriminate.
    - rewrite Hg in Hs2 by exact Hlt; discriminate.
  Qed.

  (** Splitting: stopping at tm and continuing. *)
  Lemma loop_split dt tm tmax m m1 :
    0 < dt -> tm <= tmax ->
    lp (loop_fuel (m_t m) tm dt) dt tm m = Some m1 ->
    lp (loop_fuel (m_t m1) tmax dt) dt tmax m1 = lp (loop_fuel (m_t m) tmax dt) dt tmax m.
  Proof.
    intros Hdt Hle H1.
    destruct (loop_some _ _ _ _ _ H1) as (n & -> & Hs & Hg).
    destruct (loop_total dt tmax (iter_body dt n m) Hdt) as (m2 & H2).
    rewrite H2. symmetry.
    destruct (loop_some _ _ _ _ _ H2) as (k & -> & Hs2 & Hg2).
    assert (E : iter_body dt k (iter_body dt n m) = iter_body dt (n + k) m).
    { unfold iter_body; rewrite niter_add; reflexivity. }
    rewrite E in *.
    apply loop_fuel_irrelevant with (fuel := (n + k)%nat); [exact Hdt|].
    apply loop_enough; [lia|exact Hs2|].
    intros j Hj. destruct (Nat.lt_ge_cases j n) as [Hjn|Hjn].
    - specialize (Hg j Hjn). apply loop_test_true in Hg; apply loop_test_true; lra.
    - specialize (Hg2 (j - n)%nat).
      assert (E2 : iter_body dt (j - n) (iter_body dt n m) = iter_body dt j m).
      { unfold iter_body; rewrite <- niter_add; f_equal; lia. }
      rewrite E2 in Hg2; apply Hg2; lia.
  Qed.

  (** The trajectory as seen by [iter_body] is the independent recursion of
      TimeLoopSpec. *)
  Lemma iter_clock dt n m : m_t (iter_body dt n m) = clock dt n (m_t m).
  Proof.
    revert m; induction n as [|n IH]; intros m; [reflexivity|].
    rewrite iter_body_S, IH; reflexivity.
  Qed.

  Lemma iter_x dt n m :
    m_x (iter_body dt n m) = trajectory update timestep dt (m_t m) (m_step m) (m_x m) n.
  Proof.
    induction n as [|n IH]; [reflexivity|].
    unfold iter_body in *. rewrite niter_S_out.
    pose proof (iter_clock dt n m) as Ht; pose proof (iter_step dt n m) as Hs.
    unfold iter_body in Ht, Hs.
    unfold loop_body at 1; cbn [m_x trajectory]. rewrite IH, Ht, Hs; reflexivity.
  Qed.

  Lemma run_spec dt t tmax s x d :
    0 < dt ->
    exists n m, lp (loop_fuel t tmax dt) dt tmax (mk_model x t s d) = Some m /\
      number_of_steps t tmax dt n /\
      m_t m == t + inject_Z (Z.of_nat n) * dt /\
      m_step m = (s + n)%nat /\
      m_x m = trajectory update timestep dt t s x n /\
      m_dumps m = (d ++ map (fun k => (clock dt k t, (s + k)%nat,
                      trajectory update timestep dt t s x k)) (seq 1 n))%list.
  Proof.
    intros Hdt. destruct (loop_spec dt tmax (mk_model x t s d) Hdt) as (n & H1 & H2 & H3).
    exists n; eexists; split; [exact H1|]. cbn [m_t] in *.
    split; [split; assumption|].
    rewrite iter_t, iter_step, iter_x; cbn [m_t m_step m_x].
    split; [reflexivity|]; split; [reflexivity|]; split; [reflexivity|].
    rewrite iter_dumps. cbn [m_dumps]; f_equal.
    rewrite <- seq_shift, map_map. apply map_ext; intros k.
    cbv zeta. rewrite iter_clock, iter_step, iter_x; reflexivity.
  Qed.

  Lemma number_of_steps_final t tmax dt n :
    0 < dt -> number_of_steps t tmax dt n -> (0 < n)%nat ->
    - ((1#2) * dt) <= t + inject_Z (Z.of_nat n) * dt - tmax /\
    t + inject_Z (Z.of_nat n) * dt - tmax < (1#2) * dt.
  Proof.
    intros Hdt [H1 H2] Hn. specialize (H2 (n-1)%nat ltac:(lia)).
    replace (Z.of_nat n) with (Z.of_nat (n - 1) + 1)%Z in * by lia.
    rewrite inject_Z_plus in *. change (inject_Z 1) with 1 in *.
    split; lra.
  Qed.
End Facts.

(** The loop commutes with forgetting / prefixing the dump log: the dynamics do
    not depend on the output history. *)
Section Dumps.
  Variable X : Type.
  Variable update : X -> X.
  Variable timestep : Q -> nat -> X -> X.
  Definition with_dumps (d : list (Q * nat * X)) (m : model X) : model X :=
    mk_model (m_x m) (m_t m) (m_step m) (d ++ m_dumps m)%list.
  Lemma loop_with_dumps fuel dt tmax d m :
    loop update timestep fuel dt tmax (with_dumps d m) =
    option_map (with_dumps d) (loop update timestep fuel dt tmax m).
  Proof.
    revert m; induction fuel as [|f IH]; intros m; cbn [loop].
    - replace (loop_test dt tmax (with_dumps d m)) with (loop_test dt tmax m) by reflexivity.
      destruct (loop_test dt tmax m); reflexivity.
    - replace (loop_test dt tmax (with_dumps d m)) with (loop_test dt tmax m) by reflexivity.
      destruct (loop_test dt tmax m); [|reflexivity].
      rewrite <- IH; f_equal. unfold loop_body, with_dumps; cbn.
      rewrite app_assoc; reflexivity.
  Qed.
End Dumps.

Lemma run_two_stages :
  forall (X : Type) (update : X -> X) (timestep : Q -> nat -> X -> X) (t tm tmax dt : Q) (x : X) m1,
  0 < dt -> tm <= tmax ->
  run update timestep t tm dt x = Some m1 ->
  exists m2 m,
    run_from update timestep (m_t m1) (m_step m1) (m_x m1) tmax dt = Some m2 /\
    run update timestep t tmax dt x = Some m /\
    m_x m = m_x m2 /\ m_t m = m_t m2 /\ m_step m = m_step m2 /\
    m_dumps m = (m_dumps m1 ++ m_dumps m2)%list.
Proof.
  intros X update timestep t tm tmax dt x m1 Hdt Hle H1. unfold run in *.
  pose proof (loop_split X update timestep dt tm tmax (start t x) m1 Hdt Hle H1) as Hsp.
  cbn [start m_t] in Hsp.
  assert (Em1 : m1 = with_dumps X (m_dumps m1) (mk_model (m_x m1) (m_t m1) (m_step m1) [])).
  { destruct m1; unfold with_dumps; cbn; rewrite app_nil_r; reflexivity. }
  destruct (loop_total X update timestep dt tmax (mk_model (m_x m1) (m_t m1) (m_step m1) []) Hdt) as (m2 & H2).
  cbn [m_t] in H2. exists m2, (with_dumps X (m_dumps m1) m2).
  split; [exact H2|]. split.
  - rewrite <- Hsp. rewrite Em1 at 2.
    rewrite loop_with_dumps, H2; reflexivity.
  - repeat split; reflexivity.
Qed.
