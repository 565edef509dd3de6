(** Properties C13, C63, C66, C67. *)
From Verif Require Import Base Vec Diagnostics.
Open Scope R_scope.

Lemma register_filter fields news :
  register fields news = (fields ++ filter (fun f => negb (existsb (String.eqb f) fields)) news)%list.
Proof.
  unfold register.
  assert (G : forall acc, fold_left (fun fs f => if existsb (String.eqb f) fields then fs else (fs ++ [f])%list) news acc
    = (acc ++ filter (fun f => negb (existsb (String.eqb f) fields)) news)%list).
  { induction news as [|n news IH]; intros acc; cbn; [symmetry; apply app_nil_r|].
    rewrite IH. destruct (existsb (String.eqb n) fields); cbn; [reflexivity|].
    rewrite <- app_assoc; reflexivity. }
  apply G.
Qed.

Lemma existsb_eqb_in n l : existsb (String.eqb n) l = true <-> In n l.
Proof.
  rewrite existsb_exists. split.
  - intros (x & H & E); apply String.eqb_eq in E; congruence.
  - intros H; exists n; split; [exact H|apply String.eqb_refl].
Qed.

Lemma register_in fields news n : In n (register fields news) <-> In n fields \/ In n news.
Proof.
  rewrite register_filter, in_app_iff, filter_In.
  destruct (existsb (String.eqb n) fields) eqn:E.
  - apply existsb_eqb_in in E. tauto.
  - cbn. tauto.
Qed.

Lemma NoDup_app_intro {A} (a b : list A) :
  NoDup a -> NoDup b -> (forall x, In x a -> ~ In x b) -> NoDup (a ++ b).
Proof.
  induction a as [|x a IH]; cbn; intros Ha Hb H; [exact Hb|].
  inversion Ha; subst. constructor.
  - rewrite in_app_iff. intros [?|?]; [contradiction|]. exact (H x (or_introl eq_refl) H0).
  - apply IH; auto.
Qed.

Lemma register_nodup fields news : NoDup fields -> NoDup news -> NoDup (register fields news).
Proof.
  intros H1 H2. rewrite register_filter. apply NoDup_app_intro; [exact H1|apply NoDup_filter; exact H2|].
  intros x Hx Hf. apply filter_In in Hf as [_ Hf]. apply negb_true_iff in Hf.
  apply existsb_eqb_in in Hx. congruence.
Qed.

(** C13.  Over any sequence of register calls, none of which repeats a name within
    one call, every name ever registered is present exactly once, earlier entries
    keep their place. *)
Theorem registered_once :
  forall calls fields, NoDup fields -> Forall (fun c => NoDup c) calls ->
  NoDup (register_calls fields calls) /\
  (forall n, In n (register_calls fields calls) <-> In n fields \/ exists c, In c calls /\ In n c) /\
  (exists rest, register_calls fields calls = (fields ++ rest)%list).
Proof.
  unfold register_calls. induction calls as [|c calls IH]; intros fields Hf Hc; cbn.
  - split; [exact Hf|]. split; [intros n; split; [auto|intros [?|(? & [] & _)]; assumption]|].
    exists []; symmetry; apply app_nil_r.
  - inversion Hc; subst. destruct (IH (register fields c)) as (I1 & I2 & (rest & I3)); [apply register_nodup; assumption|assumption|].
    split; [exact I1|]. split.
    + intros n. rewrite I2, register_in. split.
      * intros [[?|?]|(c' & ? & ?)]; [auto|right; exists c; auto|right; exists c'; auto].
      * intros [?|(c' & [->|?] & ?)]; [auto|auto|right; exists c'; auto].
    + rewrite I3, register_filter, <- app_assoc. eexists; reflexivity.
Qed.
Print Assumptions registered_once.

(** C13 refuted within one call. *)
Theorem register_repeated_name_refuted :
  forall fields n, ~ In n fields ->
  register fields [n; n] = (fields ++ [n; n])%list.
Proof.
  intros fields n H. rewrite register_filter. cbn.
  destruct (existsb (String.eqb n) fields) eqn:E; [apply existsb_eqb_in in E; contradiction|reflexivity].
Qed.
Print Assumptions register_repeated_name_refuted.

(** C63.  With a non-zero relaxation factor the iteration is stationary exactly at
    solutions of the implicit relation; and starting at a solution every number of
    iterations returns it. *)
Theorem iterative_diagnostic_fixed_point :
  forall (I : Type) (gamma : R) (implicit : vec I -> vec I) (x : vec I), gamma <> 0 ->
  (iter_step gamma implicit x = x <-> implicit x = x) /\
  (implicit x = x -> forall n, iter_compute gamma implicit n x = x).
Proof.
  intros I gamma implicit x Hg.
  assert (E : iter_step gamma implicit x = x <-> implicit x = x).
  { unfold iter_step. split; intros H.
    - apply functional_extensionality; intros i.
      apply (f_equal (fun f => f i)) in H. vunfold.
      apply (Rmult_eq_reg_l gamma); [lra|exact Hg].
    - rewrite H. vring. }
  split; [exact E|]. intros H n. unfold iter_compute. induction n as [|n IH]; cbn; [reflexivity|].
  rewrite (proj2 E H). exact IH.
Qed.
Print Assumptions iterative_diagnostic_fixed_point.

(** C63.  If the relation is Lipschitz with constant L (sup norm), n iterations
    reduce the error by (|1 - gamma| + |gamma| L)^n. *)
Theorem iterative_diagnostic_error :
  forall (I : Type) (gamma L E : R) (implicit : vec I -> vec I) (x0 sol : vec I) (n : nat),
  (forall (e : R) x y, (forall i, Rabs (x i - y i) <= e) -> forall i, Rabs (implicit x i - implicit y i) <= L * e) ->
  implicit sol = sol -> (forall i, Rabs (x0 i - sol i) <= E) ->
  forall i, Rabs (iter_compute gamma implicit n x0 i - sol i) <= (Rabs (1 - gamma) + Rabs gamma * L) ^ n * E.
Proof.
  intros I gamma L E implicit x0 sol n HL Hs. unfold iter_compute. revert x0 E.
  induction n as [|n IH]; intros x0 E H0 i; cbn [niter pow].
  - rewrite Rmult_1_l. exact (H0 i).
  - replace ((Rabs (1 - gamma) + Rabs gamma * L) * (Rabs (1 - gamma) + Rabs gamma * L) ^ n * E)
      with ((Rabs (1 - gamma) + Rabs gamma * L) ^ n * ((Rabs (1 - gamma) + Rabs gamma * L) * E)) by ring.
    apply IH. intros k. unfold iter_step, vadd, vscal.
    replace ((1 - gamma) * x0 k + gamma * implicit x0 k - sol k)
      with ((1 - gamma) * (x0 k - sol k) + gamma * (implicit x0 k - sol k)) by ring.
    eapply Rle_trans; [apply Rabs_triang|]. rewrite !Rabs_mult.
    pose proof (HL E x0 sol H0 k) as H1. rewrite Hs in H1. pose proof (H0 k) as H2.
    pose proof (Rabs_pos (1 - gamma)). pose proof (Rabs_pos gamma).
    assert (Rabs (1 - gamma) * Rabs (x0 k - sol k) <= Rabs (1 - gamma) * E) by (apply Rmult_le_compat_l; assumption).
    assert (Rabs gamma * Rabs (implicit x0 k - sol k) <= Rabs gamma * (L * E)) by (apply Rmult_le_compat_l; assumption).
    lra.
Qed.
Print Assumptions iterative_diagnostic_error.

(** C63 refuted: gamma is documented as the weight of the previous guess; it is
    the weight of the new evaluation (gamma = 1 forgets the guess entirely, gamma =
    0 never moves). *)
Theorem gamma_weights_new_value_refuted :
  forall (I : Type) (implicit : vec I -> vec I) (x : vec I),
  iter_step 1 implicit x = implicit x /\ iter_step 0 implicit x = x.
Proof. intros I implicit x; unfold iter_step; split; vring. Qed.
Print Assumptions gamma_weights_new_value_refuted.

(** Non-vacuity: x = x/2 + 1 has solution 2, Lipschitz constant 1/2. *)
Example iterative_example :
  let g := fun x : vec unit => (1/2) *v x +v (fun _ => 1) in
  g (fun _ => 2) = (fun _ => 2) /\
  (forall (e : R) x y, (forall i, Rabs (x i - y i) <= e) -> forall i, Rabs (g x i - g y i) <= 1/2 * e).
Proof.
  cbv zeta. split; [vfield|]. intros e x y H i. vunfold.
  replace (1 / 2 * x i + 1 - (1 / 2 * y i + 1)) with (1/2 * (x i - y i)) by field.
  rewrite Rabs_mult. rewrite (Rabs_pos_eq (1/2)) by lra. specialize (H i). lra.
Qed.

(* ---------------- steady-state error ---------------- *)
Lemma sse_computes_set {I} xs : forall s : sse I, s_set s = true ->
  sse_computes xs s = (s, map (fun x => x -v s_init s) xs).
Proof.
  induction xs as [|x xs IH]; intros s H; [reflexivity|].
  cbn. unfold sse_compute. rewrite H. rewrite (IH s H). reflexivity.
Qed.

(** C66.  In the first run and in any later process that picks up, the steady
    state error reported at every dump is the difference from the field at the
    start of the whole simulation; the stored initial field never changes. *)
Theorem steady_state_error_is_from_the_start :
  forall (I : Type) (x0 : vec I) (xs : list (vec I)) (segments : list (vec I * list (vec I))),
  let '(s1, out1) := sse_first_run x0 xs in
  out1 = map (fun x => x -v x0) (x0 :: xs) /\ s_init s1 = x0 /\
  Forall (fun seg => let '(s2, out2) := sse_picked_up_run (fst seg) (s_init s1) (snd seg) in
            out2 = map (fun x => x -v x0) (snd seg) /\ s_init s2 = x0) segments.
Proof.
  intros I x0 xs segments. unfold sse_first_run, sse_setup, sse_picked_up_run. cbn [s_exists sse_computes].
  unfold sse_compute; cbn [s_set s_exists].
  rewrite sse_computes_set by reflexivity. cbn [s_init]. split; [reflexivity|]. split; [reflexivity|].
  apply Forall_forall. intros [y ys] _. cbn [fst snd].
  rewrite sse_computes_set by reflexivity. split; reflexivity.
Qed.
Print Assumptions steady_state_error_is_from_the_start.

(** C66 refuted for a second run() in the same process: the reference becomes the
    field at the start of the second run. *)
Theorem steady_state_error_second_run_refuted :
  forall (I : Type) (x0 x : vec I) (xs ys : list (vec I)),
  let s1 := fst (sse_first_run x0 xs) in
  snd (sse_second_run s1 x ys) = map (fun y => y -v x) (x :: ys).
Proof.
  intros I x0 x xs ys. cbv zeta.
  assert (E : fst (sse_first_run x0 xs) = mk_sse true x0 true).
  { unfold sse_first_run, sse_setup. cbn [s_exists sse_computes].
    unfold sse_compute; cbn [s_set s_exists]. rewrite sse_computes_set by reflexivity. reflexivity. }
  rewrite E. unfold sse_second_run, sse_setup; cbn [s_exists].
  rewrite sse_computes_set by reflexivity. reflexivity.
Qed.
Print Assumptions steady_state_error_second_run_refuted.

(* ---------------- cumulative sum ---------------- *)
Definition total {I} (xs : list (vec I)) : vec I := fold_right (fun x a => x +v a) vzero xs.

Lemma cum_computes_total {I} (xs : list (vec I)) : forall acc, cum_computes acc xs = acc +v total xs.
Proof.
  unfold cum_computes. induction xs as [|x xs IH]; intros acc.
  - change (acc = acc +v vzero). vring.
  - cbn [fold_left]. rewrite IH. change (total (x :: xs)) with (x +v total xs).
    generalize (total xs); intros; vring.
Qed.

(** C67.  A run checkpointed after the dumps of [xs] and continued by any number
    of picked-up runs reports the sum over all dumps of the whole simulation. *)
Theorem cumulative_sum_survives_pick_up :
  forall (I : Type) (xs : list (vec I)) (segments : list (list (vec I))),
  fold_left (@cum_picked_up_run I) segments (cum_first_run xs) = total (xs ++ concat segments).
Proof.
  intros I xs segments. unfold cum_first_run. rewrite cum_computes_total.
  replace (vzero +v total xs) with (total xs) by (generalize (total xs); intros; vring).
  revert xs. induction segments as [|s segments IH]; intros xs; cbn.
  - rewrite app_nil_r; reflexivity.
  - unfold cum_picked_up_run at 2. rewrite cum_computes_total.
    assert (E : forall a b : list (vec I), total a +v total b = total (a ++ b)%list).
    { induction a as [|y a IHa]; intros b.
      - change (vzero +v total b = total b). generalize (total b); intros; vring.
      - cbn [app]. change (total (y :: a)) with (y +v total a). change (total (y :: (a ++ b))) with (y +v total (a ++ b)).
        rewrite <- IHa. generalize (total a) (total b); intros; vring. }
    rewrite E, IH, app_assoc. reflexivity.
Qed.
Print Assumptions cumulative_sum_survives_pick_up.

Example cumulative_example :
  cum_picked_up_run (cum_first_run [fun _ : unit => 1; fun _ => 2]) [fun _ => 3] tt = 6.
Proof. unfold cum_picked_up_run, cum_first_run, cum_computes; cbn. vunfold. ring. Qed.
