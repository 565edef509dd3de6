(** Property C32: the TR-BDF2 quasi-Newton timestepper. *)
From Verif Require Import Base Vec Siqn SiqnFacts TrBdf2Qn.
From Coq Require Import String.
Open Scope R_scope.

(* ---------------- the coefficients ---------------- *)

(** The scheme without transport is the three-stage Runge-Kutta scheme with nodes
    0, 2 gamma, 1 and weights b1 = b2 = gamma*gamma3, b3 = gamma2; its order conditions. *)
Theorem trbdf2qn_order_two :
  forall gamma g g2 g3, gammas gamma = Ok (g, g2, g3) ->
  g = gamma /\
  (* the trapezoidal stage: second order over 2 gamma dt *)
  gamma + gamma = 2 * gamma /\
  (* consistency and second order of the result *)
  gamma * g3 + gamma * g3 + g2 = 1 /\
  gamma * g3 * 0 + gamma * g3 * (2 * gamma) + g2 * 1 = 1 / 2 /\
  (* both linear systems have the same coefficient exactly for gamma = 1 -+ sqrt 2 / 2 *)
  (g2 = gamma <-> 2 * gamma * gamma - 4 * gamma + 1 = 0).
Proof.
  intros gamma g g2 g3. unfold gammas.
  destruct (Req_EM_T (2 - 2 * gamma) 0) as [E|E]; [discriminate|].
  destruct (Req_EM_T (2 * gamma) 0) as [E'|E']; [discriminate|].
  intros H; injection H as <- <- <-.
  assert (gamma <> 0) by lra. assert (1 - gamma <> 0) by lra.
  split; [reflexivity|]. split; [ring|]. split; [field; split; lra|]. split; [field; split; lra|]. split.
  - intros Hg. apply (f_equal (fun z => z * (2 - 2 * gamma))) in Hg.
    replace ((1 - 2 * gamma) / (2 - 2 * gamma) * (2 - 2 * gamma)) with (1 - 2 * gamma) in Hg by (field; lra). lra.
  - intros Hg. apply Rmult_eq_reg_r with (2 - 2 * gamma); [|lra].
    replace ((1 - 2 * gamma) / (2 - 2 * gamma) * (2 - 2 * gamma)) with (1 - 2 * gamma) by (field; lra). lra.
Qed.
Print Assumptions trbdf2qn_order_two.

(** The default gamma = 1 - sqrt(2)/2 is accepted, lies in (0, 1/2) and makes both
    systems equal. *)
Theorem trbdf2qn_default :
  exists g2 g3, gammas (1 - sqrt 2 / 2) = Ok (1 - sqrt 2 / 2, g2, g3) /\ g2 = 1 - sqrt 2 / 2 /\
  0 < 1 - sqrt 2 / 2 < 1 / 2.
Proof.
  assert (S : sqrt 2 * sqrt 2 = 2) by (apply sqrt_sqrt; lra).
  assert (P : 0 <= sqrt 2) by apply sqrt_pos.
  assert (B : 1 < sqrt 2 < 2) by (split; nra).
  unfold gammas. destruct (Req_EM_T (2 - 2 * (1 - sqrt 2 / 2)) 0) as [E|E]; [lra|].
  destruct (Req_EM_T (2 * (1 - sqrt 2 / 2)) 0) as [E'|E']; [lra|]. eexists; eexists. split; [reflexivity|]. split; [|lra].
  apply Rmult_eq_reg_r with (2 - 2 * (1 - sqrt 2 / 2)); [|exact E].
  replace ((1 - 2 * (1 - sqrt 2 / 2)) / (2 - 2 * (1 - sqrt 2 / 2)) * (2 - 2 * (1 - sqrt 2 / 2))) with (1 - 2 * (1 - sqrt 2 / 2)) by (field; lra).
  nra.
Qed.
Print Assumptions trbdf2qn_default.

(** C32: which gamma are accepted: all but 0 and 1 (which raise ZeroDivisionError). *)
Theorem trbdf2qn_accepts_iff :
  forall gamma, (exists r, gammas gamma = Ok r) <-> gamma <> 0 /\ gamma <> 1.
Proof.
  intros gamma. unfold gammas. destruct (Req_EM_T (2 - 2 * gamma) 0) as [E|E].
  - split; [intros [r H]; discriminate|intros [_ H]; exfalso; apply H; lra].
  - destruct (Req_EM_T (2 * gamma) 0) as [E'|E'].
    + split; [intros [r H]; discriminate|intros [H _]; exfalso; apply H; lra].
    + split; [intros _; split; lra|intros _; eexists; reflexivity].
Qed.
Print Assumptions trbdf2qn_accepts_iff.

(** C32 fails: gamma beyond 1/2 is accepted; the second sub-step then transports
    backwards over a negative interval, with a negative implicit weight. *)
Theorem trbdf2qn_gamma_unchecked_refuted :
  forall gamma, 1 / 2 < gamma < 1 ->
  exists g2 g3, gammas gamma = Ok (gamma, g2, g3) /\ g2 < 0 /\ 1 - 2 * gamma < 0.
Proof.
  intros gamma H. unfold gammas. destruct (Req_EM_T (2 - 2 * gamma) 0); [lra|]. destruct (Req_EM_T (2 * gamma) 0); [lra|].
  eexists; eexists. split; [reflexivity|]. split; [|lra].
  apply Rmult_lt_reg_r with (2 - 2 * gamma); [lra|].
  replace ((1 - 2 * gamma) / (2 - 2 * gamma) * (2 - 2 * gamma)) with (1 - 2 * gamma) by (field; lra). lra.
Qed.
Print Assumptions trbdf2qn_gamma_unchecked_refuted.

(* ---------------- fixed points ---------------- *)

Definition part {I} (c : trq I) (ls : list flabel) : state I -> state I :=
  fsum (fun t => negb (has_any [Transport; Diffusion; Physics] t) && has_any ls t) (q_residual c).
Definition free_part {I} (c : trq I) : state I -> state I :=
  fsum (fun t => negb (has_any [Transport; Diffusion; Physics; Time_derivative; Hydrostatic; Incompressible; Sponge] t)) (q_residual c).

Lemma fsum_filter {I} (p q : fterm I -> bool) ts x : fsum p (filter q ts) x = fsum (fun t => q t && p t) ts x.
Proof.
  unfold fsum. induction ts as [|t ts IH]; cbn [filter fold_right]; [reflexivity|].
  destruct (q t); cbn [fold_right andb]; rewrite IH; reflexivity.
Qed.
Lemma free_part_eq {I} (c : trq I) x :
  fsum (fun t => negb (has_any (Time_derivative :: Hydrostatic :: implicit_terms) t)) (forcing_terms (q_residual c)) x = free_part c x.
Proof.
  unfold forcing_terms, free_part. rewrite fsum_filter. unfold fsum. induction (q_residual c) as [|t ts IH]; [reflexivity|].
  cbn [fold_right]. rewrite IH. unfold has_any, implicit_terms. cbn [existsb].
  repeat match goal with |- context [existsb ?f (flabels t)] => destruct (existsb f (flabels t)); cbn; try reflexivity end.
Qed.
Lemma q_explicit_eq {I} (c : trq I) alpha dt x :
  L_explicit (q_residual c) alpha dt x = sadd (sscal (- ((1 - alpha) * dt)) (free_part c x)) (part c [Hydrostatic] x).
Proof.
  unfold L_explicit. cbv zeta. rewrite has_hydro_equiv by (intros s; sext; sunfold; ring).
  rewrite free_part_eq. f_equal. unfold forcing_terms. rewrite fsum_filter. reflexivity.
Qed.
Lemma q_implicit_eq {I} (c : trq I) alpha dt x :
  L_implicit (q_residual c) alpha dt x
  = ssub (ssub (sscal (- (alpha * dt)) (free_part c x)) (sscal dt (part c [Incompressible; Sponge] x))) (part c [Hydrostatic] x).
Proof.
  unfold L_implicit. cbv zeta. rewrite has_hydro_equiv by (intros s; sext; sunfold; ring).
  rewrite free_part_eq. f_equal; [f_equal|]; unfold forcing_terms; rewrite fsum_filter; reflexivity.
Qed.

Lemma q_transport_at {I} (c : trq I) u x_in : NoDup (map fst (q_transports c)) -> forall x_out m,
  (forall s, In (m, s) (q_transports c) -> q_transport c u x_in x_out m = s u (x_in m)) /\
  (~ In m (map fst (q_transports c)) -> q_transport c u x_in x_out m = x_out m).
Proof.
  unfold q_transport. generalize (q_transports c) as l. induction l as [|[n s] l IH]; intros ND x_out m.
  - cbn. split; [intros ? []|reflexivity].
  - cbn [map fst] in ND. inversion ND as [|? ? Hn Hl]; subst. cbn [fold_left fst snd].
    destruct (IH Hl (sset x_out n (s u (x_in n))) m) as [A B]. split.
    + intros s' [E|H]; [|apply A; exact H]. injection E as -> ->. rewrite (B Hn). unfold sset. rewrite String.eqb_refl. reflexivity.
    + cbn [map fst In]. intros H. rewrite B by tauto. unfold sset. destruct (String.eqb m n) eqn:E; [|reflexivity].
      apply String.eqb_eq in E; subst; exfalso; apply H; left; reflexivity.
Qed.
Lemma q_znp_at {I} (c : trq I) r m :
  q_zero_non_prognostics c r m =
  if (existsb (String.eqb m) (q_names c) && negb (existsb (String.eqb m) (q_solver c)))%bool then vzero else r m.
Proof. unfold q_zero_non_prognostics. apply (fold_set (fun n => existsb (String.eqb n) (q_solver c)) (fun _ => vzero)). Qed.
Lemma q_znw_at {I} (c : trq I) a r m :
  q_zero_non_wind c a r m = if (existsb (String.eqb m) (q_names c) && negb (String.eqb m "u"))%bool then a m else r m.
Proof. unfold q_zero_non_wind. apply (fold_set (fun n => String.eqb n "u") a). Qed.
Lemma q_copy_at {I} (c : trq I) a r m : q_copy c a r m = if existsb (String.eqb m) (q_tracers c) then a m else r m.
Proof.
  unfold q_copy. pose proof (fold_set (fun _ => false) a (q_tracers c) r m) as H. cbn [negb] in H.
  rewrite Bool.andb_true_r in H. exact H.
Qed.

(** The first inner iteration leaves the state unchanged: then it solves its implicit
    equation, whatever the linear solver. *)
Lemma q_inner_fixed {I} (c : trq I) alpha dt lin xp x :
  (forall r, (forall n, In n (q_names c) -> lin r n = vzero) -> forall n, In n (q_names c) -> r n = vzero) ->
  (forall n, In n (q_names c) -> q_inner c alpha dt lin 0 xp x n = x n) ->
  forall n, In n (q_names c) -> In n (q_solver c) ->
  x n = xp n +v q_mass c (L_implicit (q_residual c) alpha dt x) n.
Proof.
  intros HL Hfix n Hn Hs. unfold q_inner in Hfix. cbn [Nat.ltb Nat.leb] in Hfix.
  assert (Z : q_zero_non_prognostics c (ssub (sadd xp (q_mass c (L_implicit (q_residual c) alpha dt x))) x) n = vzero).
  { apply HL; [|exact Hn]. intros m Hm. specialize (Hfix m Hm). unfold sadd at 1 in Hfix.
    apply functional_extensionality. intros i. apply (f_equal (fun v => v i)) in Hfix. vunfold. lra. }
  rewrite q_znp_at in Z. apply existsb_eqb_in in Hn, Hs. rewrite Hn, Hs in Z. cbn [andb negb] in Z.
  apply functional_extensionality. intros i. apply (f_equal (fun v => v i)) in Z. sunfold. lra.
Qed.

(** C32.  If the first inner iteration of some outer iteration of the trapezoidal
    sub-step leaves the state unchanged, the state solves the trapezoidal scheme over
    2 gamma dt: half of the forcing at x_n before the transport, half at x_m after it,
    the transport being by the mean of u_n and u_m over 2 gamma dt (velocity scaled). *)
Theorem trbdf2qn_tr_fixed_point :
  forall (I : Type) (c : trq I) (xn : state I) (k : nat),
  NoDup (map fst (q_transports c)) ->
  (forall b, part c [Time_derivative] (q_mass c b) = b) ->
  (forall r, (forall n, In n (q_names c) -> q_lin_tr c r n = vzero) -> forall n, In n (q_names c) -> r n = vzero) ->
  let '(xp0, xm) := niter k (tr_outer c xn (tr_xstar c xn)) (tr_xstar c xn, xn) in
  let ubar := (2 * q_g c) *v ((1/2) *v (xn "u"%string +v xm "u"%string)) in
  (forall n, In n (q_names c) ->
     q_inner c (1/2) (tr_dt c) (q_lin_tr c) 0 (q_transport c (q_ubar (2 * q_g c) (xn "u"%string) (xm "u"%string)) (tr_xstar c xn) xp0) xm n = xm n) ->
  exists Fex Fim xstar xp,
    part c [Time_derivative] Fex = sadd (sscal (- (q_g c * q_dt c)) (free_part c xn)) (part c [Hydrostatic] xn) /\
    part c [Time_derivative] Fim = ssub (ssub (sscal (- (q_g c * q_dt c)) (free_part c xm))
        (sscal (2 * q_g c * q_dt c) (part c [Incompressible; Sponge] xm))) (part c [Hydrostatic] xm) /\
    xstar = sadd (fold_left (fun y p => p y) (q_slow c) xn) Fex /\
    (forall n s, In (n, s) (q_transports c) -> xp n = s ubar (xstar n)) /\
    (forall n, ~ In n (map fst (q_transports c)) -> xp n = xstar n) /\
    (forall n, In n (q_names c) -> In n (q_solver c) -> xm n = xp n +v Fim n).
Proof.
  intros I c xn k ND HM HL.
  assert (Hu : forall m, ~ In m (map fst (q_transports c)) ->
     fst (niter k (tr_outer c xn (tr_xstar c xn)) (tr_xstar c xn, xn)) m = tr_xstar c xn m).
  { intros m Hm. induction k as [|k IH]; [reflexivity|]. rewrite niter_S_out.
    destruct (niter k (tr_outer c xn (tr_xstar c xn)) (tr_xstar c xn, xn)) as [xp x]. cbn [fst] in *. unfold tr_outer. cbn [fst].
    rewrite (proj2 (q_transport_at c _ (tr_xstar c xn) ND xp m) Hm). exact IH. }
  destruct (niter k (tr_outer c xn (tr_xstar c xn)) (tr_xstar c xn, xn)) as [xp0 xm] eqn:E. intros ubar Hfix.
  set (xp := q_transport c (q_ubar (2 * q_g c) (xn "u"%string) (xm "u"%string)) (tr_xstar c xn) xp0) in *.
  exists (q_mass c (L_explicit (q_residual c) (1/2) (tr_dt c) xn)), (q_mass c (L_implicit (q_residual c) (1/2) (tr_dt c) xm)),
         (tr_xstar c xn), xp.
  assert (Eu : q_ubar (2 * q_g c) (xn "u"%string) (xm "u"%string) = ubar) by (unfold q_ubar, ubar; vfield).
  split; [rewrite HM, q_explicit_eq; f_equal; f_equal; unfold tr_dt; field|].
  split; [rewrite HM, q_implicit_eq; f_equal; f_equal; f_equal; unfold tr_dt; field|].
  split; [reflexivity|]. split; [|split].
  - intros n s Hn. unfold xp. rewrite <- Eu. apply (q_transport_at c _ (tr_xstar c xn) ND xp0 n). exact Hn.
  - intros n Hn. unfold xp. rewrite (proj2 (q_transport_at c _ (tr_xstar c xn) ND xp0 n) Hn). exact (Hu n Hn).
  - exact (q_inner_fixed c _ _ _ xp xm HL Hfix).
Qed.
Print Assumptions trbdf2qn_tr_fixed_point.

(** C32.  Likewise the BDF2 sub-step, for transported fields: the converged state is
    (1 - gamma3) x_n transported over dt plus gamma3 x_m transported over
    (1 - 2 gamma) dt, plus gamma2 dt times the forcing. *)
Theorem trbdf2qn_bdf_fixed_point_partial :
  forall (I : Type) (c : trq I) (xn xm : state I) (k : nat),
  NoDup (map fst (q_transports c)) ->
  (forall b, part c [Time_derivative] (q_mass c b) = b) ->
  (forall r, (forall n, In n (q_names c) -> q_lin_bdf c r n = vzero) -> forall n, In n (q_names c) -> r n = vzero) ->
  let '(xp0, xpm0, x) := niter k (bdf_outer c xn xm) (xn, xm, xn) in
  let xpm := q_transport c (q_ubar (1 - 2 * q_g c) (x "u"%string) (x "u"%string)) xm xpm0 in
  let xp := q_transport c (q_ubar 1 (x "u"%string) (x "u"%string)) xn xp0 in
  (forall n, In n (q_names c) ->
     q_inner c 1 (bdf_dt c) (q_lin_bdf c) 0 (sadd (sscal (1 - q_g3 c) xp) (sscal (q_g3 c) xpm)) x n = x n) ->
  exists Fim,
    part c [Time_derivative] Fim = ssub (ssub (sscal (- (q_g2 c * q_dt c)) (free_part c x))
        (sscal (q_g2 c * q_dt c) (part c [Incompressible; Sponge] x))) (part c [Hydrostatic] x) /\
    forall n s, In n (q_names c) -> In n (q_solver c) -> In (n, s) (q_transports c) ->
      x n = (1 - q_g3 c) *v s (x "u"%string) (xn n) +v q_g3 c *v s ((1 - 2 * q_g c) *v x "u"%string) (xm n) +v Fim n.
Proof.
  intros I c xn xm k ND HM HL. destruct (niter k (bdf_outer c xn xm) (xn, xm, xn)) as [[xp0 xpm0] x].
  intros xpm xp Hfix. exists (q_mass c (L_implicit (q_residual c) 1 (bdf_dt c) x)).
  split; [rewrite HM, q_implicit_eq; f_equal; f_equal; f_equal; unfold bdf_dt; field|].
  intros n s Hn Hs Ht. rewrite (q_inner_fixed c _ _ _ _ x HL Hfix n Hn Hs) at 1. unfold sadd, sscal. f_equal.
  unfold xp, xpm. rewrite (proj1 (q_transport_at c _ xn ND xp0 n) s Ht), (proj1 (q_transport_at c _ xm ND xpm0 n) s Ht).
  f_equal; f_equal; f_equal; unfold q_ubar; vfield.
Qed.
Print Assumptions trbdf2qn_bdf_fixed_point_partial.

(* ---------------- concrete configurations, all without transporting effect ---------------- *)
Definition one (a : R) : vec unit := fun _ => a.
(** constant forcing: d theta/dt = f, dq/dt = f *)
Definition drive (f : R) (x : state unit) : state unit :=
  fun n => if (String.eqb n "theta" || String.eqb n "q")%bool then one (- f) else vzero.
Definition still : vec unit -> vec unit -> vec unit := fun _ v => v.
Definition cfg (g g2 g3 dt f : R) (o i : nat) (solver tracers : list string) (trans : list string) (slow : list (state unit -> state unit)) : trq unit :=
  mk_trq [mk_fterm [Time_derivative] (fun x => x); mk_fterm [] (drive f)] ["u"; "theta"; "q"]%string solver tracers
    g g2 g3 dt o i o i (fun x => x) (fun x => x) (fun x => x) (map (fun n => (n, still)) trans) slow [].

Example cfg_solves_systems g g2 g3 dt f o i s t tr sl :
  let c := cfg g g2 g3 dt f o i s t tr sl in
  (forall b, part c [Time_derivative] (q_mass c b) = b) /\
  (forall r, (forall n, In n (q_names c) -> q_lin_tr c r n = vzero) -> forall n, In n (q_names c) -> r n = vzero).
Proof. cbv zeta. split; [intros r; cbn; sext; sunfold; ring|intros r H n Hn; exact (H n Hn)]. Qed.

Lemma cfg_impl g g2 g3 dt f o i s t tr sl a d x m : In m ["theta"; "q"]%string ->
  q_mass (cfg g g2 g3 dt f o i s t tr sl) (L_implicit (q_residual (cfg g g2 g3 dt f o i s t tr sl)) a d x) m tt = a * d * f.
Proof. intros [<-|[<-|[]]]; cbn; unfold ssub, sscal, sadd, szero, drive, one; cbn; vunfold; ring. Qed.
Lemma cfg_expl g g2 g3 dt f o i s t tr sl a d x m : In m ["theta"; "q"]%string ->
  q_mass (cfg g g2 g3 dt f o i s t tr sl) (L_explicit (q_residual (cfg g g2 g3 dt f o i s t tr sl)) a d x) m tt = (1 - a) * d * f.
Proof. intros [<-|[<-|[]]]; cbn; unfold ssub, sscal, sadd, szero, drive, one; cbn; vunfold; ring. Qed.

Lemma cfg_inner g g2 g3 dt f o i s t tr sl a d xp m : In m ["theta"; "q"]%string -> In m s ->
  forall n k x, (k <> 0%nat -> x m tt = xp m tt + a * d * f) -> (n <> 0%nat \/ k <> 0%nat) ->
  q_inner_loop (cfg g g2 g3 dt f o i s t tr sl) a d (fun r => r) n k xp x m tt = xp m tt + a * d * f.
Proof.
  intros Hm Hs. set (c := cfg g g2 g3 dt f o i s t tr sl). induction n as [|n IH]; intros k x Hx Hk; cbn [q_inner_loop].
  - destruct Hk as [Hk|Hk]; [congruence|]. exact (Hx Hk).
  - apply IH; [|right; discriminate]. intros _. unfold q_inner. cbv zeta. unfold sadd at 1. unfold vadd. rewrite q_znp_at.
    change (q_solver c) with s. rewrite (proj2 (existsb_eqb_in m s) Hs). rewrite Bool.andb_false_r.
    pose proof (cfg_impl g g2 g3 dt f o i s t tr sl a d x m Hm) as Fi. fold c in Fi.
    destruct (Nat.ltb 0 k) eqn:E.
    + unfold ssub. rewrite q_znw_at.
      replace (existsb (String.eqb m) (q_names c) && negb (String.eqb m "u"))%bool with true
        by (symmetry; destruct Hm as [<-|[<-|[]]]; reflexivity).
      vunfold. apply Nat.ltb_lt in E. rewrite Hx by lia. ring.
    + unfold ssub, sadd. vunfold. rewrite Fi. ring.
Qed.

Lemma cfg_transport_in g g2 g3 dt f o i s t tr sl u xin xout m : NoDup tr -> In m tr ->
  q_transport (cfg g g2 g3 dt f o i s t tr sl) u xin xout m = xin m.
Proof.
  intros ND H. assert (E : map fst (q_transports (cfg g g2 g3 dt f o i s t tr sl)) = tr).
  { cbn. rewrite map_map. apply map_id. }
  rewrite (proj1 (q_transport_at (cfg g g2 g3 dt f o i s t tr sl) u xin ltac:(rewrite E; exact ND) xout m) still).
  - reflexivity.
  - cbn. apply in_map_iff. exists m. auto.
Qed.
Lemma cfg_transport_out g g2 g3 dt f o i s t tr sl u xin xout m : NoDup tr -> ~ In m tr ->
  q_transport (cfg g g2 g3 dt f o i s t tr sl) u xin xout m = xout m.
Proof.
  intros ND H. assert (E : map fst (q_transports (cfg g g2 g3 dt f o i s t tr sl)) = tr).
  { cbn. rewrite map_map. apply map_id. }
  apply (q_transport_at (cfg g g2 g3 dt f o i s t tr sl) u xin); rewrite E; assumption.
Qed.

Lemma q_copy_notin {I} (c : trq I) a r m : ~ In m (q_tracers c) -> q_copy c a r m = r m.
Proof. intros H. rewrite q_copy_at. apply existsb_eqb_notin in H. rewrite H. reflexivity. Qed.
Lemma q_copy_in {I} (c : trq I) a r m : In m (q_tracers c) -> q_copy c a r m = a m.
Proof. intros H. rewrite q_copy_at. apply existsb_eqb_in in H. rewrite H. reflexivity. Qed.

Lemma out_niter (o : nat) : o <> 0%nat -> exists k, forall (A : Type) (F : A -> A) z, niter o F z = niter (S k) F z.
Proof. intros H. destruct o as [|k]; [congruence|]. exists k. reflexivity. Qed.

Section Concrete.
  Variables (g g2 g3 dt f : R) (o i : nat) (s t tr : list string) (sl : list (state unit -> state unit)).
  Notation c := (cfg g g2 g3 dt f o i s t tr sl).
  Variable m : string.
  Hypotheses (Hm : In m ["theta"; "q"]%string) (Hs : In m s) (Ht : ~ In m t) (ND : NoDup tr) (Hi : i <> 0%nat) (Ho : o <> 0%nat).

  Lemma cfg_xstar xn : tr_xstar c xn m tt = fold_left (fun y p => p y) sl xn m tt + g * dt * f.
  Proof. unfold tr_xstar, sadd, vadd. rewrite cfg_expl by exact Hm. unfold tr_dt. cbn [q_g q_dt cfg q_slow]. field. Qed.

  Lemma cfg_tr xn : tr_step c xn m tt = fold_left (fun y p => p y) sl xn m tt + 2 * g * dt * f.
  Proof.
    unfold tr_step. change (outer_tr c) with o. destruct (out_niter o Ho) as (k & En). rewrite En, niter_S_out. clear En.
    assert (Hx : fst (niter k (tr_outer c xn (tr_xstar c xn)) (tr_xstar c xn, xn)) m = tr_xstar c xn m).
    { induction k as [|j IHj]; [reflexivity|]. rewrite niter_S_out.
      destruct (niter j _ _) as [xp x]. cbn [fst] in *. unfold tr_outer. cbn [fst].
      destruct (in_dec string_dec m tr) as [H|H];
        [rewrite cfg_transport_in by assumption; reflexivity|rewrite cfg_transport_out by assumption; exact IHj]. }
    destruct (niter k _ _) as [xp x]. cbn [fst] in Hx. unfold tr_outer. cbn [snd]. rewrite q_copy_notin by exact Ht.
    change (q_lin_tr c) with (fun r : state unit => r). change (inner_tr c) with i.
    rewrite cfg_inner by (first [assumption | intros X; congruence | left; exact Hi]).
    assert (Ex : q_transport c (q_ubar (2 * q_g c) (xn "u"%string) (x "u"%string)) (tr_xstar c xn) xp m = tr_xstar c xn m).
    { destruct (in_dec string_dec m tr) as [H|H];
        [rewrite cfg_transport_in by assumption; reflexivity|rewrite cfg_transport_out by assumption; exact Hx]. }
    rewrite Ex, cfg_xstar. unfold tr_dt. cbn [q_g q_dt cfg]. field.
  Qed.

  (** transported field *)
  Lemma cfg_step_transported xn : In m tr ->
    trq_timestep c xn m tt = (1 - g3) * xn m tt + g3 * (fold_left (fun y p => p y) sl xn m tt + 2 * g * dt * f) + g2 * dt * f.
  Proof.
    intros H. unfold trq_timestep. cbn [q_final cfg fold_left]. unfold bdf_step. change (outer_bdf c) with o.
    destruct (out_niter o Ho) as (k & En). rewrite En, niter_S_out. clear En.
    destruct (niter k _ _) as [[xp xpm] x]. unfold bdf_outer. cbn [snd]. rewrite q_copy_notin by exact Ht.
    change (q_lin_bdf (cfg g g2 g3 dt f o i s t tr sl)) with (fun r : state unit => r).
    change (inner_bdf (cfg g g2 g3 dt f o i s t tr sl)) with i.
    rewrite cfg_inner by (first [assumption | intros X; congruence | left; exact Hi]).
    unfold sadd at 1, sscal, vadd at 1, vscal. rewrite !cfg_transport_in by assumption. rewrite cfg_tr.
    unfold bdf_dt. cbn [q_g3 q_g2 q_dt cfg]. ring.
  Qed.

  (** field without transport scheme: its xp is combined again in every outer iteration *)
  Lemma cfg_step_untransported xn : ~ In m tr -> sl = [] ->
    trq_timestep c xn m tt = xn m tt + (1 - (1 - g3) ^ o) * (2 * g * dt * f) + g2 * dt * f.
  Proof.
    intros H Esl. unfold trq_timestep. cbn [q_final cfg fold_left]. unfold bdf_step. change (outer_bdf c) with o.
    set (xm := tr_step c xn).
    assert (Exm : xm m tt = xn m tt + 2 * g * dt * f) by (unfold xm; rewrite cfg_tr, Esl; reflexivity).
    assert (Hx : forall k, fst (fst (niter k (bdf_outer c xn xm) (xn, xm, xn))) m tt = xn m tt + (1 - (1 - g3) ^ k) * (2 * g * dt * f) /\
                 snd (fst (niter k (bdf_outer c xn xm) (xn, xm, xn))) m = xm m).
    { induction k as [|j [IHj1 IHj2]]; [split; [cbn; ring|reflexivity]|]. rewrite niter_S_out.
      destruct (niter j _ _) as [[xp xpm] x]. cbn [fst snd] in *. unfold bdf_outer. cbn [fst snd].
      split; [|rewrite cfg_transport_out by assumption; exact IHj2].
      unfold sadd, sscal. vunfold. rewrite !cfg_transport_out by assumption. rewrite IHj1, IHj2, Exm. cbn [q_g3 cfg pow]. ring. }
    specialize (Hx o). destruct (out_niter o Ho) as (k & En). rewrite En, niter_S_out in Hx |- *. clear En.
    destruct (niter k _ _) as [[xp xpm] x]. unfold bdf_outer in *. cbn [snd fst] in *. rewrite q_copy_notin by exact Ht.
    change (q_lin_bdf (cfg g g2 g3 dt f o i s t tr sl)) with (fun r : state unit => r).
    change (inner_bdf (cfg g g2 g3 dt f o i s t tr sl)) with i.
    rewrite cfg_inner by (first [assumption | intros X; congruence | left; exact Hi]).
    rewrite (proj1 Hx). unfold bdf_dt. cbn [q_g2 q_dt cfg]. ring.
  Qed.
End Concrete.

Lemma gammas_sum gamma g g2 g3 : gammas gamma = Ok (g, g2, g3) -> g3 * (2 * g) + g2 = 1.
Proof. intros H. destruct (trbdf2qn_order_two gamma g g2 g3 H) as (-> & _ & E & _). lra. Qed.

(** The transported field under constant forcing is exact. *)
Theorem trbdf2qn_constant_forcing_exact :
  forall gamma g g2 g3 dt f o i xn, gammas gamma = Ok (g, g2, g3) -> o <> 0%nat -> i <> 0%nat ->
  trq_timestep (cfg g g2 g3 dt f o i ["u"; "theta"] ["q"] ["theta"; "q"] [])%string xn "theta"%string tt = xn "theta"%string tt + dt * f.
Proof.
  intros gamma g g2 g3 dt f o i xn H Ho Hi. rewrite cfg_step_transported; try assumption.
  - cbn [fold_left]. pose proof (gammas_sum _ _ _ _ H) as E. replace (dt * f) with ((g3 * (2 * g) + g2) * (dt * f)) by (rewrite E; ring). ring.
  - left; reflexivity.
  - right; left; reflexivity.
  - intros [X|[]]; discriminate.
  - repeat constructor; cbn; intuition discriminate.
  - left; reflexivity.
Qed.
Print Assumptions trbdf2qn_constant_forcing_exact.

(** C32 fails for slow physics: its increment over dt enters the first sub-step only and
    is amplified by gamma3, which exceeds 1 for every gamma in (0, 1/2) (1.207 for the
    default gamma). *)
Theorem trbdf2qn_slow_physics_refuted :
  forall gamma g g2 g3 dt h o i xn, 0 < gamma < 1 / 2 -> gammas gamma = Ok (g, g2, g3) -> o <> 0%nat -> i <> 0%nat ->
  let warm := fun x : state unit => sset x "theta"%string (x "theta"%string +v one h) in
  trq_timestep (cfg g g2 g3 dt 0 o i ["u"; "theta"] ["q"] ["theta"; "q"] [warm])%string xn "theta"%string tt
    = xn "theta"%string tt + g3 * h /\ 1 < g3.
Proof.
  intros gamma g g2 g3 dt h o i xn Hg H Ho Hi warm. split.
  - rewrite cfg_step_transported; try assumption.
    + cbn [fold_left]. unfold warm, sset. rewrite String.eqb_refl. unfold vadd, one. ring.
    + left; reflexivity.
    + right; left; reflexivity.
    + intros [X|[]]; discriminate.
    + repeat constructor; cbn; intuition discriminate.
    + left; reflexivity.
  - unfold gammas in H. destruct (Req_EM_T (2 - 2 * gamma) 0); [lra|]. destruct (Req_EM_T (2 * gamma) 0); [lra|].
    injection H as <- <- <-. apply Rmult_lt_reg_r with (4 * gamma * (1 - gamma)); [nra|].
    replace ((1 - (1 - 2 * gamma) / (2 - 2 * gamma)) / (2 * gamma) * (4 * gamma * (1 - gamma))) with 1 by (field; lra). nra.
Qed.
Print Assumptions trbdf2qn_slow_physics_refuted.

(** C32 fails for prognostics without a transport scheme: with two outer iterations (the
    default) constant forcing f gives dt*f*(1 - 2 gamma gamma3 (gamma3 - 1)) rather than
    dt*f. *)
Theorem trbdf2qn_untransported_refuted :
  forall gamma g g2 g3 dt f i xn, 0 < gamma < 1 / 2 -> gammas gamma = Ok (g, g2, g3) -> i <> 0%nat ->
  trq_timestep (cfg g g2 g3 dt f 2 i ["u"; "theta"] ["q"] ["q"] [])%string xn "theta"%string tt
    = xn "theta"%string tt + dt * f * (1 - 2 * g * g3 * (g3 - 1)) /\ 0 < 2 * g * g3 * (g3 - 1).
Proof.
  intros gamma g g2 g3 dt f i xn Hg H Hi. split.
  - rewrite cfg_step_untransported; try assumption; try reflexivity; try discriminate.
    + pose proof (gammas_sum _ _ _ _ H) as E. replace g2 with (1 - g3 * (2 * g)) by lra. ring.
    + left; reflexivity.
    + right; left; reflexivity.
    + intros [X|[]]; discriminate.
    + repeat constructor; cbn; intuition discriminate.
    + intros [X|[]]; discriminate.
  - destruct (trbdf2qn_slow_physics_refuted gamma g g2 g3 1 0 1 1 xn Hg H ltac:(discriminate) ltac:(discriminate)) as [_ G3].
    destruct (trbdf2qn_order_two gamma g g2 g3 H) as (-> & _). apply Rmult_lt_0_compat; [|lra]. nra.
Qed.
Print Assumptions trbdf2qn_untransported_refuted.

(** C32 fails for prognostics that are neither in the linear solver nor active tracers
    (solver_prognostics given explicitly): they never change, whatever the equation, the
    transport and the physics before the end of the step. *)
Theorem trbdf2qn_frozen_field_refuted :
  forall (I : Type) (c : trq I) (xn : state I) (n : string),
  In n (q_names c) -> ~ In n (q_solver c) -> ~ In n (q_tracers c) ->
  (* the linear solver, whose matrix for such a field is its mass matrix *)
  (forall r, r n = vzero -> q_lin_bdf c r n = vzero) ->
  bdf_step c xn (tr_step c xn) n = xn n.
Proof.
  intros I c xn n Hn Hs Ht HL. unfold bdf_step. generalize (tr_step c xn) as xm. intros xm.
  induction (outer_bdf c) as [|k IH]; [reflexivity|]. rewrite niter_S_out.
  destruct (niter k (bdf_outer c xn xm) (xn, xm, xn)) as [[xp xpm] x]. cbn [snd] in IH. unfold bdf_outer. cbn [snd].
  rewrite q_copy_notin by exact Ht. generalize (sadd (sscal (1 - q_g3 c) (q_transport c (q_ubar 1 (x "u"%string) (x "u"%string)) xn xp))
    (sscal (q_g3 c) (q_transport c (q_ubar (1 - 2 * q_g c) (x "u"%string) (x "u"%string)) xm xpm))) as xq. intros xq.
  assert (G : forall j k y, y n = xn n -> q_inner_loop c 1 (bdf_dt c) (q_lin_bdf c) j k xq y n = xn n).
  { induction j as [|j IHj]; intros k0 y Hy; cbn [q_inner_loop]; [exact Hy|]. apply IHj. unfold q_inner. cbv zeta. unfold sadd at 1.
    rewrite HL; [rewrite Hy; vring|]. rewrite q_znp_at. apply existsb_eqb_in in Hn. apply existsb_eqb_notin in Hs. rewrite Hn, Hs. reflexivity. }
  apply G. exact IH.
Qed.
Print Assumptions trbdf2qn_frozen_field_refuted.

(** C32 fails for active tracers included in the linear solver: they are overwritten by
    the transported value, so that the implicit half of their forcing is lost: constant
    forcing f gives gamma gamma3 dt f. *)
Theorem trbdf2qn_tracer_in_solver_refuted :
  forall gamma g g2 g3 dt f o i xn, gammas gamma = Ok (g, g2, g3) -> o <> 0%nat ->
  trq_timestep (cfg g g2 g3 dt f o i ["u"; "theta"; "q"] ["q"] ["theta"; "q"] [])%string xn "q"%string tt
    = xn "q"%string tt + g * g3 * dt * f.
Proof.
  intros gamma g g2 g3 dt f o i xn H Ho. set (c := cfg g g2 g3 dt f o i _ _ _ _).
  assert (ND : NoDup ["theta"; "q"]%string) by (repeat constructor; cbn; intuition discriminate).
  assert (Hq : In "q"%string ["theta"; "q"]%string) by (right; left; reflexivity).
  unfold trq_timestep. cbn [q_final c cfg fold_left]. fold c. unfold bdf_step. change (outer_bdf c) with o.
  assert (Etr : tr_step c xn "q"%string tt = xn "q"%string tt + g * dt * f).
  { unfold tr_step. change (outer_tr c) with o. destruct (out_niter o Ho) as (k & En). rewrite En, niter_S_out. clear En.
    destruct (niter k _ _) as [xp x]. unfold tr_outer. cbn [snd]. rewrite q_copy_in by (left; reflexivity).
    unfold c. rewrite cfg_transport_in by assumption. rewrite cfg_xstar by (exact Hq). cbn [fold_left]. ring. }
  destruct (out_niter o Ho) as (k & En). rewrite En, niter_S_out. clear En.
  destruct (niter k _ _) as [[xp xpm] x]. unfold bdf_outer. cbn [snd]. rewrite q_copy_in by (left; reflexivity).
  unfold sadd, sscal. vunfold. unfold c at 2. rewrite cfg_transport_in by assumption. unfold c at 3.
  rewrite cfg_transport_in by assumption. rewrite Etr. cbn [q_g3 c cfg]. ring.
Qed.
Print Assumptions trbdf2qn_tracer_in_solver_refuted.
