(** Properties C34 and C35: revisionist integral deferred correction. *)
From Verif Require Import Base Vec Mpi Ridc RidcFacts.
Open Scope R_scope.

(* ================= C34 ================= *)

Section Vectors.
  Context {I : Type}.
  Variable dt : R.   (* the sub-interval length *)
  Variables Li Le Ls : vec I -> vec I.
  (** residual of the node solver, deferred_correction.py l.716-790 *)
  Definition ridc_residual (Us U1 Ump1 Um sK s q Y : vec I) : vec I :=
    Y -v Us +v dt *v (Ls sK -v Ls s) +v dt *v (Li Y -v Li Ump1) +v dt *v (Le U1 -v Le Um) +v q.
  (** a solver that always finds a root of the residual *)
  Definition solves (solve : vec I -> vec I -> vec I -> vec I -> vec I -> vec I -> vec I -> vec I -> vec I) : Prop :=
    forall Us U1 Ump1 Um sK s q g, ridc_residual Us U1 Ump1 Um sK s q (solve Us U1 Ump1 Um sK s q g) = vzero.
  Definition unique_root : Prop := forall Y Z, Y +v dt *v Li Y = Z +v dt *v Li Z -> Y = Z.
End Vectors.

(** Specification: the quadrature equations with the stencils of l+1 consecutive nodes
    (dy/dt = - L(y)): node m+1 is node m minus the integral over the sub-interval of the
    polynomial through the nodes 0..l (first l sub-intervals) or m+1-l..m+1. *)
Definition quadrature_equations {I} (l M : nat) (w : nat -> nat -> R) (L : vec I -> vec I) (Y : nat -> vec I) : Prop :=
  forall m, (m < M)%nat ->
    Y (S m) = Y m -v (if Nat.ltb m l then vsum (S l) (fun j => w (S m) j *v L (Y j))
                      else vsum (S l) (fun j => w l j *v L (Y (S m - l + j)%nat))).

Lemma fold_axpy {I} (g : nat -> vec I) n s z :
  fold_left (fun q j => q +v g j) (seq s n) z = z +v vsum n (fun j => g (s + j)%nat).
Proof.
  revert s z. induction n as [|n IH]; intros s z; cbn [seq fold_left].
  - cbn. vring.
  - rewrite IH. change (S n) with (1 + n)%nat. rewrite vsum_split. cbn [vsum]. rewrite Nat.add_0_r.
    assert (E : vsum n (fun j => g (S s + j)%nat) = vsum n (fun k => g (s + (1 + k))%nat)) by (apply vsum_ext; intros; f_equal; lia).
    rewrite E. generalize (g s) (vsum n (fun k => g (s + (1 + k))%nat)). intros. vring.
Qed.
Lemma quad_vec {I} (w : nat -> nat -> nat -> R) l (f : nat -> vec I) m :
  quad vzero (fun q c x => q +v c *v x) w l f m =
  if Nat.ltb m l then vsum (S l) (fun j => w l (S m) j *v f j) else vsum (S l) (fun j => w l l j *v f (S m - l + j)%nat).
Proof.
  unfold quad, stencil. destruct (Nat.ltb m l).
  - assert (G : forall s z, fold_left (fun q e => let '(r, j, n) := e in q +v w l r j *v f n) (map (fun j => (S m, j, j)) s) z
                = fold_left (fun q j => q +v w l (S m) j *v f j) s z) by (induction s; intros; cbn; auto).
    rewrite G, (fold_axpy (fun j => w l (S m) j *v f j) (S l) 0). cbn [plus]. generalize (vsum (S l) (fun j => w l (S m) j *v f j)). intros. vring.
  - assert (G : forall s z, fold_left (fun q e => let '(r, j, n) := e in q +v w l r j *v f n) (map (fun j => (l, j, (S m - l + j)%nat)) s) z
                = fold_left (fun q j => q +v w l l j *v f (S m - l + j)%nat) s z) by (induction s; intros; cbn; auto).
    rewrite G, (fold_axpy (fun j => w l l j *v f (S m - l + j)%nat) (S l) 0). cbn [plus].
    generalize (vsum (S l) (fun j => w l l j *v f (S m - l + j)%nat)). intros. vring.
Qed.

(** C34.  For problems without source terms a sweep leaves node values unchanged exactly
    if they satisfy the quadrature equations; every sub-interval count, every stencil
    width, every weights, all operators, every solver that finds the root. *)
Theorem ridc_fixed_iff_quadrature :
  forall (I : Type) (dt : R) (M l : nat) (w : nat -> nat -> nat -> R) (Li Le : vec I -> vec I) solve (A : nat -> vec I * vec I),
  solves dt Li Le (fun _ => vzero) solve -> unique_root dt Li ->
  (forall m, (m <= M)%nat -> fst (sweep vzero (fun q c x => q +v c *v x) w (fun _ => vzero) (fun y => y) (fun y _ => Li y +v Le y) solve l A m) = fst (A m)) <->
  quadrature_equations l M (w l) (fun y => Li y +v Le y) (fun m => fst (A m)).
Proof.
  intros I dt M l w Li Le solve A Hs Hu. unfold sweep. cbv zeta.
  set (U := fun m => fst (A m)). set (f := fun m => Li (U m) +v Le (U m)).
  set (sU := fun m : nat => if Nat.eqb m 0 then vzero else snd (A m)).
  set (N := nodes vzero (fun q c x => q +v c *v x) w (fun _ : vec I => vzero) (fun y => y) solve l U f sU (U O)).
  assert (HN : forall m, ridc_residual dt Li Le (fun _ => vzero) (fst (N m)) (fst (N m)) (U (S m)) (U m) (snd (N m)) (sU m)
                          (quad vzero (fun q c x => q +v c *v x) w l f m) (fst (N (S m))) = vzero) by (intros m; apply Hs).
  assert (HQ : forall m, quad vzero (fun q c x => q +v c *v x) w l f m =
    (if Nat.ltb m l then vsum (S l) (fun j => w l (S m) j *v (Li (U j) +v Le (U j)))
     else vsum (S l) (fun j => w l l j *v (Li (U (S m - l + j)%nat) +v Le (U (S m - l + j)%nat))))) by (intros m; apply quad_vec).
  unfold quadrature_equations. fold U. split.
  - intros H m Hm. specialize (HN m). rewrite HQ in HN. change (forall m, (m <= M)%nat -> fst (N m) = U m) in H.
    rewrite (H m), (H (S m)) in HN by lia.
    match goal with |- context [if Nat.ltb m l then ?a else ?b] => set (q := if Nat.ltb m l then a else b) in * end.
    unfold ridc_residual in HN. apply functional_extensionality; intros i. apply (f_equal (fun v => v i)) in HN. vunfold. fold (U m) (U (S m)). lra.
  - intros H. change (forall m, (m <= M)%nat -> fst (N m) = U m). induction m as [|m IH]; intros Hm; [reflexivity|].
    specialize (IH ltac:(lia)). specialize (HN m). rewrite HQ in HN. specialize (H m ltac:(lia)). rewrite IH in HN.
    match goal with H : context [if Nat.ltb m l then ?a else ?b] |- _ => set (q := if Nat.ltb m l then a else b) in * end.
    apply Hu. unfold ridc_residual in HN. apply functional_extensionality; intros i.
    apply (f_equal (fun v => v i)) in HN, H. vunfold. unfold U in *. lra.
Qed.
Print Assumptions ridc_fixed_iff_quadrature.

(** The hypotheses are met: linear decay, implicit, on scalars. *)
Example ridc_solver_example : forall h : R, 0 < h ->
  let solve := fun Us U1 Ump1 Um sK s q g : vec unit => fun i => (Us i + h * Ump1 i - q i) / (1 + h) in
  solves h (fun y => y) (fun _ => vzero) (fun _ => vzero) solve /\ unique_root h (fun y : vec unit => y).
Proof.
  intros h Hh solve. split.
  - intros Us U1 Ump1 Um sK s q g. unfold ridc_residual, solve. apply functional_extensionality; intros i. vunfold. field. lra.
  - intros Y Z E. apply functional_extensionality; intros i. apply (f_equal (fun v => v i)) in E. vunfold. nra.
Qed.

(** C34.  All nodes the sweeps touch exist exactly if M >= K, in both modes; the
    constructor does not check this. *)
Theorem ridc_stencils_exist :
  forall (M K : nat) (reduced : bool), (1 <= K)%nat ->
  (forall k n, (1 <= k <= K)%nat -> In n (touched M (if reduced then k else K)) -> (n <= M)%nat) <-> (K <= M)%nat.
Proof.
  intros M K reduced HK. split.
  - intros H. apply (H K K); [lia|]. replace (if reduced then K else K) with K by (destruct reduced; reflexivity).
    unfold touched. apply in_flat_map. exists (K - 1)%nat. split; [apply in_or_app; left; apply in_seq; lia|]. right; left; lia.
  - intros HM k n Hk Hn. assert (Hl : ((if reduced then k else K) <= M)%nat) by (destruct reduced; lia).
    revert Hn Hl. generalize (if reduced then k else K). intros l Hn Hl. unfold touched in Hn. apply in_flat_map in Hn.
    destruct Hn as (m & Hm & Hn). assert (Hm' : (m < M)%nat) by (apply in_app_or in Hm; destruct Hm as [Hm|Hm]; apply in_seq in Hm; lia).
    destruct Hn as [<-|[<-|Hn]]; [lia|lia|]. apply in_map_iff in Hn. destruct Hn as (e & <- & He).
    apply stencil_bound in He. lia.
Qed.
Print Assumptions ridc_stencils_exist.

(** C34 fails with source terms.  For dy/dt = -s with a constant source and exact weights
    the nodes y - m dt s satisfy the quadrature equations and the base scheme produces
    them; but source_Ukp1[0] is never set, and after any number of sweeps the result is one
    sub-interval short. *)
Theorem ridc_source_refuted :
  forall (I : Type) (dt : R) (M K : nat) (reduced : bool) (w : nat -> nat -> nat -> R) (s y : vec I) solve,
  (1 <= K)%nat -> (1 <= M)%nat ->
  (forall l r, (1 <= r <= l)%nat -> rsum (S l) (w l r) = dt) ->
  solves dt (fun _ => vzero) (fun _ => vzero) (fun v => v) solve ->
  ridc_apply vzero (fun q c x => q +v c *v x) w (fun u => u -v dt *v s) (fun _ => s) (fun u => u) (fun _ src => src) solve M K reduced y
  = y -v (INR (M - 1) * dt) *v s.
Proof.
  intros I dt M K reduced w s y solve HK HM Hw Hs. unfold ridc_apply.
  assert (One : forall l A, (1 <= l)%nat -> fst (A O) = y -> (forall m, (1 <= m)%nat -> snd (A m) = s) ->
    let B := sweep vzero (fun q c x => q +v c *v x) w (fun _ => s) (fun u => u) (fun _ src => src) solve l A in
    fst (B O) = y /\ (forall m, (1 <= m)%nat -> snd (B m) = s) /\ forall m, (1 <= m)%nat -> fst (B m) = y -v (INR (m - 1) * dt) *v s).
  { intros l A Hl HA0 HAs. cbv zeta. unfold sweep. cbv zeta. set (f := fun _ : nat => s).
    set (U := fun m => fst (A m)). set (sU := fun m : nat => if Nat.eqb m 0 then s else snd (A m)).
    set (N := nodes vzero (fun q c x => q +v c *v x) w (fun _ : vec I => s) (fun u => u) solve l U f sU (U O)).
    assert (Hq : forall m, quad vzero (fun q c x => q +v c *v x) w l f m = dt *v s).
    { intros m. rewrite quad_vec. unfold f. destruct (Nat.ltb_spec m l).
      - rewrite vsum_scal_const. rewrite (Hw l (S m)) by lia. reflexivity.
      - rewrite vsum_scal_const. rewrite (Hw l l) by lia. reflexivity. }
    assert (HsU : forall m, sU m = s) by (intros [|m]; [reflexivity|apply HAs; lia]).
    assert (Hsn : forall m, (1 <= m)%nat -> snd (N m) = s) by (intros [|m] Hm; [lia|reflexivity]).
    split; [exact HA0|]. split; [exact Hsn|]. change (forall m, (1 <= m)%nat -> fst (N m) = y -v (INR (m - 1) * dt) *v s).
    assert (HN : forall m, ridc_residual dt (fun _ => vzero) (fun _ => vzero) (fun v => v) (fst (N m)) (fst (N m)) (U (S m)) (U m) (snd (N m)) (sU m)
                          (quad vzero (fun q c x => q +v c *v x) w l f m) (fst (N (S m))) = vzero) by (intros m; apply Hs).
    intros m Hm. induction m as [|m IH]; [lia|]. specialize (HN m). rewrite Hq, HsU in HN.
    destruct m as [|m].
    - unfold ridc_residual in HN. change (snd (N O)) with (@vzero I) in HN. change (fst (N O)) with (fst (A O)) in HN. rewrite HA0 in HN.
      apply functional_extensionality; intros i. apply (f_equal (fun v => v i)) in HN. vunfold. change (INR (1 - 1)) with 0. lra.
    - specialize (IH ltac:(lia)). rewrite IH, (Hsn (S m)) in HN by lia. replace (S m - 1)%nat with m in HN by lia.
      replace (S (S m) - 1)%nat with (S m) by lia. rewrite S_INR.
      unfold ridc_residual in HN. apply functional_extensionality; intros i. apply (f_equal (fun v => v i)) in HN. vunfold. nra. }
  assert (Gen : forall n k A, (1 <= n)%nat -> (1 <= k)%nat -> fst (A O) = y -> (forall m, (1 <= m)%nat -> snd (A m) = s) ->
     fst (sweeps vzero (fun q c x => q +v c *v x) w (fun _ => s) (fun u => u) (fun _ src => src) solve K reduced k n A M) = y -v (INR (M - 1) * dt) *v s).
  { induction n as [|n IH]; intros k A Hn Hk HA0 HAs; [lia|]. cbn [sweeps].
    destruct (One (if reduced then k else K) A ltac:(destruct reduced; lia) HA0 HAs) as (B0 & Bs & Bm).
    destruct n as [|n]; [apply Bm; exact HM|]. apply IH; [lia|lia|exact B0|exact Bs]. }
  apply Gen; [exact HK|lia|reflexivity|]. intros m Hm. reflexivity.
Qed.
Print Assumptions ridc_source_refuted.

(** The hypotheses are met, e.g. by the trapezoidal weights for K = 1. *)
Example ridc_source_example : forall h : R,
  solves h (fun _ => vzero) (fun _ => vzero) (fun v : vec unit => v) (fun Us _ _ _ sK s q _ => Us -v h *v (sK -v s) -v q) /\
  forall r, (1 <= r <= 1)%nat -> rsum 2 (fun j => h / 2) = h.
Proof. intros h. split; [intros Us U1 Ump1 Um sK s q g; unfold ridc_residual; vring|]. intros r _. cbn. field. Qed.

(* ================= C35 ================= *)
Close Scope R_scope.

Section Equal.
  Context {V C : Type}.
  Variable zero : V.
  Variable axpy : V -> C -> V -> V.
  Variable Qm : nat -> nat -> nat -> C.
  Variables base src limit : V -> V.
  Variable fval : V -> V -> V.
  Variable solve : V -> V -> V -> V -> V -> V -> V -> V -> V.

  Lemma nodes_ext l U U' f f' s s' u0 : (forall m, U m = U' m) -> (forall m, f m = f' m) -> (forall m, s m = s' m) ->
    forall m, nodes zero axpy Qm src limit solve l U f s u0 m = nodes zero axpy Qm src limit solve l U' f' s' u0 m.
  Proof.
    intros HU Hf Hs. induction m as [|m IH]; [reflexivity|]. cbn [nodes]. rewrite IH. unfold node.
    rewrite !HU, !Hs. rewrite (quad_ext zero axpy Qm l f f' m) by (intros; apply Hf). reflexivity.
  Qed.
  Lemma sweep_ext l A B : (forall m, A m = B m) -> forall m, sweep zero axpy Qm src limit fval solve l A m = sweep zero axpy Qm src limit fval solve l B m.
  Proof.
    intros H m. unfold sweep. cbv zeta. rewrite (H O). apply nodes_ext; intros j; rewrite ?H; reflexivity.
  Qed.
  Lemma sweeps_S K red n : forall k A, (forall m, sweeps zero axpy Qm src limit fval solve K red k (S n) A m =
     sweep zero axpy Qm src limit fval solve (if red then k + n else K) (sweeps zero axpy Qm src limit fval solve K red k n A) m).
  Proof.
    induction n as [|n IH]; intros k A m.
    - cbn [sweeps]. rewrite Nat.add_0_r. reflexivity.
    - change (sweeps zero axpy Qm src limit fval solve K red k (S (S n)) A m) with
        (sweeps zero axpy Qm src limit fval solve K red (S k) (S n) (sweep zero axpy Qm src limit fval solve (if red then k else K) A) m).
      rewrite IH. replace (S k + n) with (k + S n) by lia. reflexivity.
  Qed.
  Lemma level_serial K x : (forall y, src y = zero) ->
    forall r X SIN, (forall i, X i = x) -> (forall i, SIN i = zero) ->
    forall m, level zero axpy Qm base src limit fval solve X SIN r m =
              sweeps zero axpy Qm src limit fval solve K true 1 r (predictor base src x) m.
  Proof.
    intros Hsrc. induction r as [|r IH]; intros X SIN HX HS m.
    - cbn [level sweeps]. rewrite HX. reflexivity.
    - rewrite sweeps_S. cbn [level plus]. unfold sweep. cbv zeta.
      set (A := sweeps zero axpy Qm src limit fval solve K true 1 r (predictor base src x)) in *.
      assert (H0 : fst (A 0) = x).
      { rewrite <- (IH X SIN HX HS 0). destruct r; cbn [level]; [cbn; apply HX|apply HX]. }
      rewrite HX, <- H0.
      apply nodes_ext; intros j; rewrite ?(IH X SIN HX HS); rewrite ?HS, ?Hsrc; destruct (Nat.eqb_spec j 0) as [->|]; rewrite ?Hsrc; reflexivity.
  Qed.
End Equal.

(** C35.  K+1 ranks, pipeline flushed in every step (the default flush_freq = 1), no
    source terms, any K >= 1 and M the constructor accepts: for every interleaving of the
    ranks and every choice of buffered or synchronous sends, N time steps terminate
    without deadlock, and every rank returns in every step exactly what the serial scheme
    with reduced stencils returns. *)
Theorem parallel_ridc_equals_serial :
  forall (V C : Type) (zero : V) (axpy : V -> C -> V -> V) (Qm : nat -> nat -> nat -> C) (base limit : V -> V) (fval : V -> V -> V)
         (solve : V -> V -> V -> V -> V -> V -> V -> V -> V) (M K J N : nat) (x : V),
  1 <= K -> parallel_accepts M K (K + 1) = true ->
  let src := fun _ : V => zero in
  terminates_with (K + 1)
    (fun r => run_rank zero axpy Qm base src limit fval solve M K J 1 r N 1 x zero [])
    (fun _ => serial_run zero axpy Qm base src limit fval solve M K N x []).
Proof.
  intros V C zero axpy Qm base limit fval solve M K J N x HK Hacc src.
  assert (HM : K <= M).
  { unfold parallel_accepts in Hacc. apply andb_prop in Hacc. destruct Hacc as [_ H]. apply Nat.leb_le in H.
    assert (K <= K * (K + 1) / 2) by (apply Nat.div_le_lower_bound; nia). lia. }
  replace (K + 1) with (S K) by lia.
  pose proof (run_terminates zero axpy Qm base src limit fval solve M K J 1 N 1 (fun _ => x) (fun _ => zero) HK HM) as HT.
  destruct HT as [b HT]. exists b. intros m c Hst. destruct (HT m c Hst) as [Hb Hp]. split; [exact Hb|].
  destruct Hp as [[Hret Hch]|Hp]; [left|right; exact Hp]. split; [|exact Hch]. intros i Hi. rewrite (Hret i Hi). f_equal.
  assert (G : forall N step X SIN out i x, (forall j, X j = x) -> (forall j, SIN j = zero) ->
     outputs zero axpy Qm base src limit fval solve M K J 1 N step X SIN out i = serial_run zero axpy Qm base src limit fval solve M K N x (out i)).
  { clear. induction N as [|N IH]; intros step X SIN out i x HX HS; [reflexivity|]. cbn [outputs serial_run].
    assert (HN : forall j, next_x zero axpy Qm base src limit fval solve M K J 1 step X SIN j = ridc_apply zero axpy Qm base src limit fval solve M K true x).
    { intros j. unfold next_x, flushes. rewrite Nat.mod_1_r. cbn [Nat.ltb Nat.leb Nat.eqb andb orb]. unfold ridc_apply.
      rewrite (level_serial zero axpy Qm base src limit fval solve K x (fun _ => eq_refl) K X SIN HX HS). reflexivity. }
    rewrite (IH (S step) _ _ _ i (ridc_apply zero axpy Qm base src limit fval solve M K true x) HN).
    - rewrite HN. reflexivity.
    - intros [|j]; [apply HS|reflexivity]. }
  apply (G N 1 (fun _ => x) (fun _ => zero) (fun _ => []) i x); reflexivity.
Qed.
Print Assumptions parallel_ridc_equals_serial.

(** C35.  For every flush frequency, and with source terms, N steps still terminate
    without deadlock, with results that depend on no scheduling decision. *)
Theorem parallel_ridc_deterministic :
  forall (V C : Type) (zero : V) (axpy : V -> C -> V -> V) (Qm : nat -> nat -> nat -> C) (base src limit : V -> V) (fval : V -> V -> V)
         (solve : V -> V -> V -> V -> V -> V -> V -> V -> V) (M K J flush_freq N : nat) (x : V),
  1 <= K -> parallel_accepts M K (K + 1) = true ->
  terminates_with (K + 1)
    (fun r => run_rank zero axpy Qm base src limit fval solve M K J flush_freq r N 1 x zero [])
    (outputs zero axpy Qm base src limit fval solve M K J flush_freq N 1 (fun _ => x) (fun _ => zero) (fun _ => [])).
Proof.
  intros V C zero axpy Qm base src limit fval solve M K J ff N x HK Hacc.
  assert (HM : K <= M).
  { unfold parallel_accepts in Hacc. apply andb_prop in Hacc. destruct Hacc as [_ H]. apply Nat.leb_le in H.
    assert (K <= K * (K + 1) / 2) by (apply Nat.div_le_lower_bound; nia). lia. }
  replace (K + 1) with (S K) by lia.
  exact (run_terminates zero axpy Qm base src limit fval solve M K J ff N 1 (fun _ => x) (fun _ => zero) HK HM).
Qed.
Print Assumptions parallel_ridc_deterministic.

(** C35 fails without flushing: after a step that is not flushed rank 0 returns the value
    of the predictor, whatever the corrections. *)
Theorem parallel_ridc_unflushed_refuted :
  forall (V C : Type) (zero : V) (axpy : V -> C -> V -> V) (Qm : nat -> nat -> nat -> C) (base src limit : V -> V) (fval : V -> V -> V)
         (solve : V -> V -> V -> V -> V -> V -> V -> V -> V) (M K J flush_freq : nat) (x : V),
  1 <= K -> parallel_accepts M K (K + 1) = true -> flush_freq = 0 \/ 2 <= flush_freq -> 2 <= J ->
  exists res, terminates_with (K + 1)
    (fun r => run_rank zero axpy Qm base src limit fval solve M K J flush_freq r 1 1 x zero []) res /\
    res 0 = [niter M base x].
Proof.
  intros V C zero axpy Qm base src limit fval solve M K J ff x HK Hacc Hff HJ.
  eexists. split; [apply parallel_ridc_deterministic; assumption|]. cbn [outputs app]. unfold next_x, flushes.
  replace (Nat.ltb 0 ff && Nat.eqb (1 mod ff) 0) with false.
  2:{ destruct Hff as [->|Hff]; [reflexivity|]. rewrite Nat.mod_small by lia. destruct (Nat.ltb 0 ff); reflexivity. }
  destruct (Nat.eqb_spec 1 J); [lia|]. reflexivity.
Qed.
Print Assumptions parallel_ridc_unflushed_refuted.

(** C35 fails with source terms: rank 1 evaluates the right-hand side at node 0 with the
    value the source had been left at (zero in the first step).  K = M = 1, dy/dt = -s. *)
Theorem parallel_ridc_source_refuted :
  forall (h s y : R), (h * s)%R <> 0%R ->
  let axpy := fun q c x : R => (q + c * x)%R in
  let Qm := fun _ _ _ : nat => (h / 2)%R in
  let base := fun u : R => (u - h * s)%R in
  let src := fun _ : R => s in
  let fval := fun _ src : R => src in
  let solve := fun Us _ _ _ sK sU q _ : R => (Us - h * (sK - sU) - q)%R in
  exists res, terminates_with 2 (fun r => run_rank 0%R axpy Qm base src (fun u => u) fval solve 1 1 1 1 r 1 1 y 0%R []) res /\
    res 1 = [y + h * s / 2]%R /\
    serial_run 0%R axpy Qm base src (fun u => u) fval solve 1 1 1 y [] = [y] /\ (y + h * s / 2)%R <> y.
Proof.
  intros h s y Hs axpy Qm base src fval solve.
  eexists. split; [apply (parallel_ridc_deterministic R R 0%R axpy Qm base src (fun u => u) fval solve 1 1 1 1 1 y); [lia|reflexivity]|].
  split; [|split].
  - cbn. unfold solve, axpy, Qm, fval, src. f_equal. Lra.lra.
  - cbn. unfold solve, axpy, Qm, fval, src. f_equal. Lra.lra.
  - Lra.lra.
Qed.
Print Assumptions parallel_ridc_source_refuted.

(** C35 fails for K = 0, which the constructor accepts with one rank: rank 0 sends to a
    rank that does not exist. *)
Theorem parallel_ridc_K0_refuted :
  forall (V C : Type) (zero : V) (axpy : V -> C -> V -> V) (Qm : nat -> nat -> nat -> C) (base src limit : V -> V) (fval : V -> V -> V)
         (solve : V -> V -> V -> V -> V -> V -> V -> V -> V) (M J flush_freq : nat) (x : V),
  1 <= M -> parallel_accepts M 0 1 = true /\
  (forall c, ~ step 1 (init (fun r => run_rank zero axpy Qm base src limit fval solve M 0 J flush_freq r 1 1 x zero [])) c) /\
  forall res, run_rank zero axpy Qm base src limit fval solve M 0 J flush_freq 0 1 1 x zero [] <> Ret res.
Proof.
  intros V C zero axpy Qm base src limit fval solve M J ff x HM. destruct M as [|M]; [lia|]. split; [reflexivity|]. split.
  - intros c Hst. inversion Hst as [? ? Hs|? i d t v k Hi Hd Hp]; subst.
    + inversion Hs as [? j s t k l1 v l2 Hj Hp Hc Hno|? i j t v k k' Hi Hj Hij Hp Hp' Hno]; subst; [|lia].
      destruct l1; cbn in Hc; discriminate.
    + destruct i as [|i]; [|lia]. cbn in Hp. injection Hp as <- _ _ _. lia.
  - intros res. cbn. discriminate.
Qed.
Print Assumptions parallel_ridc_K0_refuted.

(** The parallel scheme is built only with one rank per level and with at least 1 + 2 + ... + K nodes. *)
Fixpoint ones_to (K : nat) : nat := match K with O => 0 | S k => K + ones_to k end.
Theorem parallel_ridc_constructor :
  forall M K ranks, parallel_accepts M K ranks = true <-> ranks = K + 1 /\ ones_to K <= M.
Proof.
  intros M K ranks. unfold parallel_accepts.
  assert (E : K * (K + 1) / 2 = ones_to K).
  { symmetry. apply (Nat.div_unique _ 2 _ 0); [lia|]. induction K as [|K IH]; [reflexivity|]. cbn [ones_to]. lia. }
  rewrite E. rewrite Bool.andb_true_iff, Nat.eqb_eq, Nat.leb_le. reflexivity.
Qed.
Print Assumptions parallel_ridc_constructor.
