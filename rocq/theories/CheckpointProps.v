(** Properties C05 - C10: checkpoints, output schedule, crash behaviour, guard. *)
From Verif Require Import Base Checkpoint CheckpointFacts.

(** C05.  For any scheme (one-level or multi-level), any time advance, any initial
    state s0 and any freshly built model: checkpoint after N steps, pick up, take M
    more steps: np1, time, step and start-up counter equal those of N + M
    uninterrupted steps; after at least one step all time levels are equal too. *)
Theorem restart_is_exact :
  forall (V T : Type) (advance : T -> T) (scheme : T -> nat -> list V -> nat -> V * nat)
         (multilevel : bool),
  (multilevel = false -> forall t n p c, snd (scheme t n p c) = c) ->
  forall (s0 fresh : sim V T) (N M : nat),
  prev s0 <> [] -> length (prev fresh) = length (prev s0) -> startup fresh = startup s0 ->
  let sN := niter N (sim_step advance scheme) s0 in
  let picked_up := load multilevel (save multilevel sN) fresh in
  let a := niter M (sim_step advance scheme) picked_up in
  let b := niter (N + M) (sim_step advance scheme) s0 in
  (new a, time a, step a, startup a) = (new b, time b, step b, startup b) /\
  (0 < M -> a = b).
Proof. exact restart_exact. Qed.
Print Assumptions restart_is_exact.

(** C05.  The checkpoint written at the start of the first run restarts the whole
    simulation. *)
Theorem restart_from_initial_checkpoint :
  forall (V T : Type) (advance : T -> T) (scheme : T -> nat -> list V -> nat -> V * nat)
         (multilevel : bool),
  (multilevel = false -> forall t n p c, snd (scheme t n p c) = c) ->
  forall (s0 fresh : sim V T) (M : nat),
  prev s0 <> [] -> length (prev fresh) = length (prev s0) -> startup fresh = startup s0 -> step s0 = 1 ->
  let a := niter M (sim_step advance scheme) (load multilevel (save_initial s0) fresh) in
  let b := niter M (sim_step advance scheme) s0 in
  (new a, time a, step a, startup a) = (new b, time b, step b, startup b).
Proof.
  intros V T advance scheme multilevel Hm s0 fresh M H1 H2 H3 H4.
  exact (restart_from_initial V T advance scheme multilevel s0 fresh M H1 H2 H3 H4).
Qed.
Print Assumptions restart_from_initial_checkpoint.

(** C05.  Any number of interruptions, at any steps. *)
Theorem restart_any_number_of_times :
  forall (V T : Type) (advance : T -> T) (scheme : T -> nat -> list V -> nat -> V * nat)
         (multilevel : bool),
  (multilevel = false -> forall t n p c, snd (scheme t n p c) = c) ->
  forall (fresh s0 : sim V T) (segments : list nat) (M : nat),
  prev s0 <> [] -> length (prev fresh) = length (prev s0) -> startup fresh = startup s0 ->
  let a := niter M (sim_step advance scheme) (interrupted V T advance scheme multilevel fresh s0 segments) in
  let b := niter (list_sum segments + M) (sim_step advance scheme) s0 in
  (new a, time a, step a, startup a) = (new b, time b, step b, startup b).
Proof. exact interrupted_exact. Qed.
Print Assumptions restart_any_number_of_times.

(** A two-level scheme with start-up (first step x+1, then x_n + x_{n-1}). *)
Definition ex_scheme (t : nat) (n : nat) (p : list nat) (c : nat) : nat * nat :=
  if c <? 1 then (last p 0 + 1, S c) else (list_sum p, c).
Definition ex_start := mk_sim [5; 5] 5 0 1 0.

Example restart_example :
  let a := niter 3 (sim_step S ex_scheme) (load true (save true (niter 2 (sim_step S ex_scheme) ex_start)) ex_start) in
  a = niter 5 (sim_step S ex_scheme) ex_start /\ new a = 45 /\ time a = 5 /\ step a = 6.
Proof. vm_compute; auto. Qed.

(** C05 refuted in one corner: calling run() a second time writes an initial dump
    whose checkpoint lacks the start-up counter and has step = 1; picking up from
    it repeats the start-up steps, so the continuation differs from the
    uninterrupted second run. *)
Theorem second_run_checkpoint_loses_startup_refuted :
  exists (scheme : nat -> nat -> list nat -> nat -> nat * nat) (s0 fresh : sim nat nat) (N M : nat),
    fresh = s0 /\
    let s := niter N (sim_step S scheme) s0 in
    new (niter M (sim_step S scheme) (load true (save_initial s) fresh)) <>
    new (niter M (sim_step S scheme) s).
Proof.
  exists ex_scheme, ex_start, ex_start, 3, 1. split; [reflexivity|]. vm_compute. discriminate.
Qed.
Print Assumptions second_run_checkpoint_loses_startup_refuted.

(** C06.  The schedule of an uninterrupted run: kind e is written at model step j
    exactly when its frequency divides j. *)
Theorem fresh_run_schedule :
  forall f n e j, In (e, j) (fresh_run f n) <-> j <= n /\ j mod freq_of f e = 0.
Proof. exact fresh_run_in. Qed.
Print Assumptions fresh_run_schedule.

(** C06.  After a pick-up at step p the schedule counts from p. *)
Theorem picked_up_run_schedule :
  forall f p n e j, p <= n ->
  (In (e, j) (picked_up_run f p n) <-> p < j <= n /\ (j - p) mod freq_of f e = 0).
Proof. intros f p n e j H. exact (picked_up_run_in f p n e j H). Qed.
Print Assumptions picked_up_run_schedule.

(** C06, exact extent: the interrupted run writes kind e at the same steps as the
    uninterrupted one iff the frequency of e divides the pick-up step. *)
Theorem schedule_preserved_iff_partial :
  forall f e p, 0 < freq_of f e ->
  ((forall n j, p <= n -> p < j ->
      (In (e, j) (picked_up_run f p n) <-> In (e, j) (fresh_run f n)))
   <-> p mod freq_of f e = 0).
Proof. exact schedule_aligned_iff. Qed.
Print Assumptions schedule_preserved_iff_partial.

(** C06.  Checkpoints themselves are therefore always on schedule: the pick-up
    step is one at which the uninterrupted run wrote a checkpoint. *)
Theorem checkpoint_schedule_preserved :
  forall f p m, 0 < f_chk f -> In (EChk, p) (fresh_run f m) ->
  forall n j, p <= n -> p < j -> (In (EChk, j) (picked_up_run f p n) <-> In (EChk, j) (fresh_run f n)).
Proof.
  intros f p m Hf Hin. apply fresh_run_in in Hin as [_ Hm].
  exact (proj2 (schedule_aligned_iff f EChk p Hf) Hm).
Qed.
Print Assumptions checkpoint_schedule_preserved.

(** C06 refuted for field output, diagnostics and point data: dumpfreq = 2,
    chkptfreq = 1, pick-up at step 1. *)
Theorem output_schedule_refuted :
  exists f p n e j, In (EChk, p) (fresh_run f p) /\ p < j <= n /\
    In (e, j) (fresh_run f n) /\ ~ In (e, j) (picked_up_run f p n).
Proof.
  exists (mk_freqs 1 1 1 2), 1, 2, EField, 2. repeat split; try lia.
  - apply fresh_run_in; cbn; lia.
  - apply fresh_run_in; cbn; lia.
  - rewrite picked_up_run_in by lia. cbn. intros [_ H]; discriminate.
Qed.
Print Assumptions output_schedule_refuted.

(** C07.  What a pick-up really does to the three output files: diagnostics and
    fields are appended, point data is overwritten from its first record. *)
Theorem output_files_after_pick_up :
  forall f d p n, d_chk d = Complete p ->
  let evs := picked_up_run f p n in
  exists d', resume_killed f d n (length (micros 0 (length (d_field d)) evs)) = Some d' /\
    d_diag d' = (d_diag d ++ diags_of evs)%list /\
    d_field d' = (d_field d ++ fields_of evs)%list /\
    d_point d' = (points_of evs ++ skipn (length (points_of evs)) (d_point d))%list.
Proof. exact resume_files. Qed.
Print Assumptions output_files_after_pick_up.

(** C07 refuted for every schedule: as soon as the continued run samples at all
    and something had been sampled, the first old sample is gone. *)
Theorem point_data_overwritten_refuted :
  forall f d p n d' old rest new_first new_rest,
  d_chk d = Complete p ->
  d_point d = old :: rest ->
  points_of (picked_up_run f p n) = new_first :: new_rest ->
  resume_killed f d n (length (micros 0 (length (d_field d)) (picked_up_run f p n))) = Some d' ->
  hd_error (d_point d') = Some new_first.
Proof.
  intros f d p n d' old rest nf nr Hc Ho Hn Hr.
  destruct (resume_files f d p n Hc) as (d2 & H2 & _ & _ & H3).
  rewrite H2 in Hr; injection Hr as <-. rewrite H3, Hn. reflexivity.
Qed.
Print Assumptions point_data_overwritten_refuted.

Example point_data_lost_example :
  let f := mk_freqs 1 1 2 1 in
  let d := run_killed f 2 1000 in
  d_point d = [0; 1; 2] /\ d_chk d = Complete 2 /\
  exists d', resume_killed f d 4 1000 = Some d' /\ d_point d' = [3; 4; 2] /\
             d_diag d' = [0; 1; 2; 3; 4] /\ d_field d' = [0; 1; 2; 3; 4].
Proof. vm_compute. repeat split; auto. eexists; split; [reflexivity|]. auto. Qed.

(** C08.  Provided nothing later than the checkpoint had been written when the
    earlier run ended, the diagnostics and field time axes stay strictly
    increasing after the pick-up. *)
Theorem time_axis_increasing_partial :
  forall f d p n d', d_chk d = Complete p -> p <= n ->
  increasing (d_diag d) -> increasing (d_field d) ->
  (forall j, In j (d_diag d) -> j <= p) -> (forall j, In j (d_field d) -> j <= p) ->
  resume_killed f d n (length (micros 0 (length (d_field d)) (picked_up_run f p n))) = Some d' ->
  increasing (d_diag d') /\ increasing (d_field d').
Proof. exact resume_increasing. Qed.
Print Assumptions time_axis_increasing_partial.

(** C08 refuted: with chkptfreq = 2 a run killed after step 3 and picked up from
    the checkpoint of step 2 writes model step 3 twice. *)
Theorem time_axis_duplicates_refuted :
  exists f n k d, d = run_killed f n k /\
    exists d', resume_killed f d 4 1000 = Some d' /\ ~ increasing (d_diag d') /\ ~ increasing (d_field d').
Proof.
  exists (mk_freqs 1 1 2 1), 3, 1000. eexists; split; [reflexivity|].
  vm_compute. eexists; split; [reflexivity|].
  split; intros H; repeat match goal with H : _ /\ _ |- _ => destruct H end;
  repeat match goal with H : Forall _ (_ :: _) |- _ => inversion H; clear H; subst end; lia.
Qed.
Print Assumptions time_axis_duplicates_refuted.

(** C08 refuted even when a checkpoint is written at every step: a crash between
    the diagnostics write and the checkpoint of the same step. *)
Theorem time_axis_duplicates_chkptfreq_1_refuted :
  exists n k d d', d = run_killed (mk_freqs 1 1 1 1) n k /\
    resume_killed (mk_freqs 1 1 1 1) d n 1000 = Some d' /\ ~ increasing (d_diag d').
Proof.
  exists 2, 11. eexists; eexists; split; [reflexivity|]. vm_compute. split; [reflexivity|].
  vm_compute. intros H; repeat match goal with H : _ /\ _ |- _ => destruct H end;
  repeat match goal with H : Forall _ (_ :: _) |- _ => inversion H; clear H; subst end; lia.
Qed.
Print Assumptions time_axis_duplicates_chkptfreq_1_refuted.

(** C09 refuted: after the first checkpoint has completed there is a kill point at
    which no complete checkpoint is on disk, and then picking up is impossible. *)
Theorem crash_destroys_checkpoint_refuted :
  exists f n k1 k2, k1 < k2 /\
    (exists p, d_chk (run_killed f n k1) = Complete p) /\
    (forall p, d_chk (run_killed f n k2) <> Complete p) /\
    (forall m k, resume_killed f (run_killed f n k2) m k = None).
Proof.
  exists (mk_freqs 1 1 1 1), 2, 4, 8. split; [lia|]. split; [exists 0; reflexivity|].
  split; [intros p; vm_compute; discriminate|]. intros m k. unfold resume_killed.
  replace (d_chk (run_killed (mk_freqs 1 1 1 1) 2 8)) with Partial by reflexivity. reflexivity.
Qed.
Print Assumptions crash_destroys_checkpoint_refuted.

(** C09.  The window is exactly the checkpoint write: killed between any other two
    elementary writes, a checkpoint completed earlier is still complete. *)
Theorem checkpoint_survives_outside_write_partial :
  forall d ms p, d_chk d = Complete p ->
  (forall j, d_chk (exec d ms) <> Complete j) -> In MTrunc ms.
Proof.
  intros d ms; revert d; induction ms as [|m ms IH]; intros d p Hc Hn.
  - exfalso; exact (Hn p Hc).
  - destruct m; try (left; reflexivity); right; unfold exec in *; cbn [fold_left] in Hn;
      (eapply IH; [|exact Hn]); cbn; first [exact Hc | reflexivity].
Qed.
Print Assumptions checkpoint_survives_outside_write_partial.

(** C09.  The last elementary write decides: if it is not the truncation, a
    checkpoint that was ever completed is complete now. *)
Theorem checkpoint_complete_unless_truncating_partial :
  forall f n k, (exists k0 p, k0 <= k /\ d_chk (run_killed f n k0) = Complete p) ->
  (forall p, d_chk (run_killed f n k) <> Complete p) ->
  exists ms, firstn k (micros 0 0 (fresh_run f n)) = (ms ++ [MTrunc])%list.
Proof.
  intros f n k. unfold run_killed.
  (* in the list of writes every MTrunc is immediately followed by MComplete *)
  assert (P : forall evs pi fi k d,
    (exists k0 p, k0 <= k /\ d_chk (exec d (firstn k0 (micros pi fi evs))) = Complete p) ->
    (forall p, d_chk (exec d (firstn k (micros pi fi evs))) <> Complete p) ->
    exists ms, firstn k (micros pi fi evs) = (ms ++ [MTrunc])%list).
  { induction evs as [|[e j] evs IH]; intros pi fi k' d (k0 & p & Hk & Hc) Hn.
    - cbn in *. rewrite firstn_nil in *. exfalso; exact (Hn p Hc).
    - assert (Stay : forall e', (forall d0, d_chk (do_micro d0 e') = d_chk d0) -> forall pi' fi',
        micros pi fi ((e, j) :: evs) = e' :: micros pi' fi' evs ->
        exists ms, firstn k' (micros pi fi ((e, j) :: evs)) = (ms ++ [MTrunc])%list).
      { intros e' He' pi' fi' E. rewrite E in *.
        destruct k' as [|k'].
        { replace k0 with 0 in Hc by lia. cbn in *. exfalso; exact (Hn p Hc). }
        cbn [firstn]. unfold exec in *; cbn [firstn fold_left] in *.
        destruct (IH pi' fi' k' (do_micro d e')) as [ms Hms].
        - destruct k0 as [|k0]; cbn [firstn fold_left] in Hc.
          + exists 0, p. split; [lia|]. cbn. rewrite He'. exact Hc.
          + exists k0, p. split; [lia|exact Hc].
        - exact Hn.
        - exists (e' :: ms). cbn. rewrite Hms; reflexivity. }
      destruct e; cbn [micros].
      + apply (Stay (MDiag j)) with (pi' := pi) (fi' := fi); reflexivity.
      + apply (Stay (MPoint pi j)) with (pi' := S pi) (fi' := fi); reflexivity.
      + clear Stay. cbn [micros] in *.
        destruct k' as [|[|k']].
        { replace k0 with 0 in Hc by lia. cbn in *. exfalso; exact (Hn p Hc). }
        { exists []. reflexivity. }
        cbn [firstn]. unfold exec in *; cbn [firstn fold_left] in *.
        destruct (IH pi fi k' (do_micro (do_micro d MTrunc) (MComplete j))) as [ms Hms].
        * exists 0, j. split; [lia|]. reflexivity.
        * exact Hn.
        * exists (MTrunc :: MComplete j :: ms). cbn. rewrite Hms; reflexivity.
      + apply (Stay (MField fi j)) with (pi' := pi) (fi' := S fi); reflexivity. }
  apply P.
Qed.
Print Assumptions checkpoint_complete_unless_truncating_partial.

(** C09 refuted (DumbCheckpoint): pick-up itself truncates the file it has just
    read, before any new checkpoint is stored. *)
Theorem dumbcheckpoint_pick_up_destroys_refuted :
  forall d p, d_chk d = Complete p -> d_chk (dumbcheckpoint_setup d) = Partial.
Proof. reflexivity. Qed.
Print Assumptions dumbcheckpoint_pick_up_destroys_refuted.

(** C10.  On every rank: GustoIOError iff output needs the directory, it exists,
    and none of pick-up, test mode, overwrite holds; OSError iff it had to be
    created and could not; and all ranks agree. *)
Theorem results_directory_guard :
  forall o exists0 mkdir_ok0 size r, r < size ->
  let outcome := nth_error (guard o exists0 mkdir_ok0 size) r in
  (outcome = Some (Err GustoIOError) <->
     needs_dir o = true /\ exists0 = true /\ g_pick_up o = false /\
     g_running_tests o = false /\ g_overwrite o = false) /\
  (outcome = Some (Err OSError) <-> needs_dir o = true /\ exists0 = false /\ mkdir_ok0 = false) /\
  (outcome = Some (Ok tt) \/ outcome = Some (Err GustoIOError) \/ outcome = Some (Err OSError)).
Proof.
  intros o ex mk size r Hr. cbv zeta. rewrite guard_uniform by lia.
  rewrite nth_error_map.
  assert (E : nth_error (seq 0 size) r = Some r) by (apply nth_error_seq; lia).
  rewrite E. cbn [option_map].
  destruct (needs_dir o), ex, mk, (g_running_tests o), (g_pick_up o), (g_overwrite o); cbn;
    intuition congruence.
Qed.
Print Assumptions results_directory_guard.

Theorem results_directory_guard_ranks_agree :
  forall o exists0 mkdir_ok0 size r1 r2, r1 < size -> r2 < size ->
  nth_error (guard o exists0 mkdir_ok0 size) r1 = nth_error (guard o exists0 mkdir_ok0 size) r2.
Proof.
  intros o ex mk size r1 r2 H1 H2. rewrite guard_uniform by lia. rewrite !nth_error_map.
  rewrite (proj2 (nth_error_seq size 0 r1 r1)), (proj2 (nth_error_seq size 0 r2 r2)) by lia.
  reflexivity.
Qed.
Print Assumptions results_directory_guard_ranks_agree.

(** The condition under which the directory is needed, as documented. *)
Theorem needs_dir_iff :
  forall o, needs_dir o = true <->
    g_dump_vtus o = true \/ g_dump_nc o = true \/ g_latlon o = true \/ g_diagnostics o = true \/
    g_point_data o = true \/ (g_checkpoint o = true /\ g_pick_up o = false).
Proof.
  intros o; unfold needs_dir. rewrite !orb_true_iff, andb_true_iff, negb_true_iff. tauto.
Qed.
Print Assumptions needs_dir_iff.

Example guard_example :
  guard (mk_guard true false false false false false false false false) true true 3
  = [Err GustoIOError; Err GustoIOError; Err GustoIOError] /\
  guard (mk_guard true false false false false false false false true) true true 2 = [Ok tt; Ok tt].
Proof. vm_compute; auto. Qed.
