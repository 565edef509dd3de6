(** Properties C29 (spin-up), C30 (fixed points of the semi-implicit quasi-Newton
    iteration) and C31 (reference profile updates). *)
From Verif Require Import Base Vec Siqn SiqnFacts.
From Coq Require Import String Lqa.
Open Scope R_scope.

(* ================= C30 ================= *)

(** Specification.  The residual's terms by kind, for terms that are not transport,
    diffusion or physics. *)
Definition slow_kind : list flabel := [Transport; Diffusion; Physics].
Definition mass_part {I} (c : siqn I) := fsum (fun t => negb (has_any slow_kind t) && has_any [Time_derivative] t) (residual_ c).
Definition hydro_part {I} (c : siqn I) := fsum (fun t => negb (has_any slow_kind t) && has_any [Hydrostatic] t) (residual_ c).
Definition implicit_part {I} (c : siqn I) := fsum (fun t => negb (has_any slow_kind t) && has_any [Incompressible; Sponge] t) (residual_ c).
Definition forcing_part {I} (c : siqn I) :=
  fsum (fun t => negb (has_any [Transport; Diffusion; Physics; Time_derivative; Hydrostatic; Incompressible; Sponge] t)) (residual_ c).

(** [x] solves the semi-implicit scheme over one step from [xn]. *)
Definition semi_implicit_solution {I} (c : siqn I) (xn x : state I) : Prop :=
  exists Fex Fim xstar xp,
    mass_part c Fex = sadd (sscal (- ((1 - alpha_ c) * dt_ c)) (forcing_part c xn)) (hydro_part c xn) /\
    mass_part c Fim = ssub (ssub (sscal (- (alpha_ c * dt_ c)) (forcing_part c x)) (sscal (dt_ c) (implicit_part c x))) (hydro_part c x) /\
    xstar = sadd (sadd (fold_left (fun y p => p y) (slow_physics c) xn) Fex) (sscal (1 - beta c) (increments (inner_physics c) xn)) /\
    (forall n s, In (n, s) (transports c) -> xp n = transported c s xn x xstar n) /\
    (forall n, ~ In n (map fst (transports c)) -> xp n = xstar n) /\
    (forall n, In n (names c) -> In n (solver_prognostics c) ->
       x n = fold_left (fun y p => p y) (fast_physics c) xp n +v Fim n +v beta c *v increments (inner_physics c) x n).

Lemma fsum_filter {I} (p q : fterm I -> bool) ts x : fsum p (filter q ts) x = fsum (fun t => q t && p t) ts x.
Proof.
  unfold fsum. induction ts as [|t ts IH]; cbn [filter fold_right]; [reflexivity|].
  destruct (q t); cbn [fold_right andb]; rewrite IH; reflexivity.
Qed.
Lemma fsum_ext {I} (p q : fterm I -> bool) ts x : (forall t, p t = q t) -> fsum p ts x = fsum q ts x.
Proof. intros H. unfold fsum. induction ts as [|t ts IH]; cbn; [reflexivity|]. rewrite H, IH. reflexivity. Qed.
Lemma forcing_part_eq {I} (c : siqn I) x :
  fsum (fun t => negb (has_any (Time_derivative :: Hydrostatic :: implicit_terms) t)) (forcing_terms (residual_ c)) x = forcing_part c x.
Proof.
  unfold forcing_terms, forcing_part. rewrite fsum_filter. apply fsum_ext. intros t. unfold has_any, implicit_terms. cbn.
  repeat match goal with |- context [existsb ?f (flabels t)] => destruct (existsb f (flabels t)); cbn; try reflexivity end.
Qed.
Lemma L_explicit_eq {I} (c : siqn I) x :
  L_explicit (residual_ c) (alpha_ c) (dt_ c) x
  = sadd (sscal (- ((1 - alpha_ c) * dt_ c)) (forcing_part c x)) (hydro_part c x).
Proof.
  unfold L_explicit. cbv zeta. rewrite has_hydro_equiv by (intros s; sext; sunfold; ring).
  rewrite forcing_part_eq. f_equal. unfold forcing_terms. rewrite fsum_filter. reflexivity.
Qed.
Lemma L_implicit_eq {I} (c : siqn I) x :
  L_implicit (residual_ c) (alpha_ c) (dt_ c) x
  = ssub (ssub (sscal (- (alpha_ c * dt_ c)) (forcing_part c x)) (sscal (dt_ c) (implicit_part c x))) (hydro_part c x).
Proof.
  unfold L_implicit. cbv zeta. rewrite has_hydro_equiv by (intros s; sext; sunfold; ring).
  rewrite forcing_part_eq. f_equal; [f_equal|]; unfold forcing_terms; rewrite fsum_filter; reflexivity.
Qed.
Lemma xstar_eq {I} (c : siqn I) xn :
  compute_xstar c xn = sadd (sadd (fold_left (fun y p => p y) (slow_physics c) xn)
     (mass_solve c (L_explicit (residual_ c) (alpha_ c) (dt_ c) xn))) (sscal (1 - beta c) (increments (inner_physics c) xn)).
Proof.
  unfold compute_xstar, apply_explicit, apply_all_physics. cbv zeta. destruct (Req_EM_T (beta c) 1) as [E|E].
  - rewrite E. sext. sunfold. ring.
  - apply fold_increments.
Qed.
Lemma rhs0_eq {I} (c : siqn I) k xp af x : (k = 0%nat \/ accelerator c = false) ->
  inner_rhs c k xp af x = ssub (sadd (sadd af (mass_solve c (L_implicit (residual_ c) (alpha_ c) (dt_ c) x)))
                                    (sscal (beta c) (increments (inner_physics c) x))) x.
Proof.
  intros H. unfold inner_rhs, apply_implicit. cbv zeta.
  replace (Nat.ltb 0 k && accelerator c)%bool with false
    by (destruct H as [-> | ->]; [reflexivity|symmetry; apply Bool.andb_false_r]).
  generalize (mass_solve c (L_implicit (residual_ c) (alpha_ c) (dt_ c) x)) as Fi. intros Fi.
  destruct (Req_EM_T (beta c) 0) as [E|E].
  - rewrite E. sext. sunfold. ring.
  - rewrite fold_increments. generalize (increments (inner_physics c) x) as J. intros. sext. sunfold. ring.
Qed.

(** C30.  Suppose that, in some outer iteration, the first inner iteration leaves the
    state unchanged (on the prognostic fields).  Then this state solves the semi-implicit
    scheme, whatever the linear solver is, as long as it maps only zero to zero; the mass
    solver is any exact solver. *)
Theorem siqn_fixed_point :
  forall (I : Type) (c : siqn I) (xn : state I) (k : nat),
  NoDup (map fst (transports c)) ->
  (forall b, mass_part c (mass_solve c b) = b) ->
  (forall r, (forall n, In n (names c) -> linear_solve c r n = vzero) -> forall n, In n (names c) -> r n = vzero) ->
  let xstar := compute_xstar c xn in
  let '(xp, x) := niter k (outer_step c xn xstar) (xstar, xn) in
  let xp' := transport_fields c xn x xstar xp in
  (forall n, In n (names c) -> inner_step c 0 xp' (apply_all_physics (fast_physics c) xp') x n = x n) ->
  semi_implicit_solution c xn x.
Proof.
  intros I c xn k ND HM HL xstar.
  destruct (niter k (outer_step c xn xstar) (xstar, xn)) as [xp x] eqn:E. intros xp' Hfix.
  exists (mass_solve c (L_explicit (residual_ c) (alpha_ c) (dt_ c) xn)),
         (mass_solve c (L_implicit (residual_ c) (alpha_ c) (dt_ c) x)), xstar, xp'.
  split; [rewrite HM; apply L_explicit_eq|]. split; [rewrite HM; apply L_implicit_eq|]. split; [apply xstar_eq|].
  split; [|split].
  - intros n s Hn. apply (transport_fields_at c xn x xstar ND xp n). exact Hn.
  - intros n Hn. unfold xp'. rewrite (proj2 (transport_fields_at c xn x xstar ND xp n) Hn).
    pose proof (xp_untransported c xn xstar ND k n Hn) as H. rewrite E in H. exact H.
  - intros n Hn Hs. unfold inner_step, qn_solve in Hfix.
    assert (Z : zero_non_prognostics c (inner_rhs c 0 xp' (apply_all_physics (fast_physics c) xp') x) n = vzero).
    { apply HL; [|exact Hn]. intros m Hm. specialize (Hfix m Hm). unfold sadd in Hfix.
      apply functional_extensionality. intros i. apply (f_equal (fun v => v i)) in Hfix. vunfold. Lra.lra. }
    rewrite zero_non_prognostics_at in Z. apply existsb_eqb_in in Hn, Hs. rewrite Hn, Hs in Z. cbn [andb negb] in Z.
    rewrite rhs0_eq in Z by (left; reflexivity). apply functional_extensionality. intros i.
    apply (f_equal (fun v => v i)) in Z. unfold apply_all_physics in Z. sunfold. Lra.lra.
Qed.
Print Assumptions siqn_fixed_point.

(** C30, conversely: a solution (with the untreated tracers taken from the transport) is
    left unchanged by the whole outer iteration, for any number of inner iterations,
    provided that there is no inner physics or the accelerator is off. *)
Theorem siqn_solution_is_fixed_partial :
  forall (I : Type) (c : siqn I) (xn xp x : state I),
  (forall r, (forall n, In n (names c) -> r n = vzero) -> linear_solve c r = szero) ->
  (inner_physics c = [] \/ beta c = 0 \/ accelerator c = false) ->
  let xstar := compute_xstar c xn in
  let xp' := transport_fields c xn x xstar xp in
  let af := fold_left (fun y p => p y) (fast_physics c) xp' in
  let Fim := mass_solve c (L_implicit (residual_ c) (alpha_ c) (dt_ c) x) in
  (forall n, In n (names c) -> In n (solver_prognostics c) ->
     x n = af n +v Fim n +v beta c *v increments (inner_physics c) x n) ->
  (forall n, In n (names c) -> ~ In n (solver_prognostics c) -> x n = af n) ->
  outer_step c xn xstar (xp, x) = (xp', x).
Proof.
  intros I c xn xp x HL Hopt xstar xp' af Fim Hs Ht. unfold outer_step.
  fold xp'. change (apply_all_physics (fast_physics c) xp') with af.
  assert (Hinner : forall n k, inner_loop c n k xp' af x = x).
  { induction n as [|n IH]; intros k; cbn [inner_loop]; [reflexivity|].
    replace (inner_step c k xp' af x) with x; [apply IH|]. unfold inner_step, qn_solve. rewrite HL; [sext; sunfold; ring|].
    intros m Hm. rewrite zero_non_prognostics_at. pose proof Hm as Hm'. apply existsb_eqb_in in Hm'. rewrite Hm'. cbn [andb].
    destruct (existsb (String.eqb m) (solver_prognostics c)) eqn:Es; cbn [negb]; [|reflexivity].
    apply existsb_eqb_in in Es. specialize (Hs m Hm Es).
    assert (R0 : forall k, (k = 0%nat \/ accelerator c = false) -> inner_rhs c k xp' af x m = vzero).
    { intros k' Hk. rewrite rhs0_eq by exact Hk. fold Fim. apply functional_extensionality; intros i.
      apply (f_equal (fun v => v i)) in Hs. unfold ssub, sadd, sscal. vunfold. Lra.lra. }
    destruct k as [|k]; [apply R0; left; reflexivity|].
    destruct (accelerator c) eqn:Ea; [|apply R0; right; reflexivity].
    destruct Hopt as [Hp|[Hb|Hf]]; [| |discriminate].
    - unfold inner_rhs. cbv zeta. rewrite Ea, Hp. cbn [Nat.ltb Nat.leb andb fold_left].
      assert (G : ssub (zero_non_wind c x (sadd (apply_implicit c xp' x) (ssub af xp'))) x m = vzero).
      { unfold ssub. rewrite zero_non_wind_at, Hm'. destruct (String.eqb m "u"); cbn [andb negb]; [|vring].
        unfold apply_implicit. fold Fim. unfold sadd. rewrite Hp in Hs. cbn in Hs. apply functional_extensionality; intros i.
        apply (f_equal (fun v => v i)) in Hs. unfold szero in Hs. unfold ssub. vunfold. Lra.lra. }
      destruct (Req_EM_T (beta c) 0); exact G.
    - unfold inner_rhs. cbv zeta. rewrite Ea. cbn [Nat.ltb Nat.leb andb].
      destruct (Req_EM_T (beta c) 0) as [_|E]; [|contradiction].
      unfold ssub at 1. rewrite zero_non_wind_at, Hm'. destruct (String.eqb m "u"); cbn [andb negb]; [|vring].
      unfold apply_implicit. fold Fim. unfold sadd. rewrite Hb in Hs. apply functional_extensionality; intros i.
      apply (f_equal (fun v => v i)) in Hs. unfold ssub. vunfold. Lra.lra. }
  rewrite Hinner. f_equal. apply functional_extensionality. intros m. rewrite copy_active_tracers_at.
  destruct (existsb (String.eqb m) (names c)) eqn:En; cbn [andb]; [|reflexivity].
  destruct (existsb (String.eqb m) (solver_prognostics c)) eqn:Es; cbn [negb]; [reflexivity|].
  apply existsb_eqb_in in En. apply existsb_eqb_notin in Es. symmetry. apply Ht; assumption.
Qed.
Print Assumptions siqn_solution_is_fixed_partial.

(* ---------------- a concrete instance ---------------- *)

(** Two scalar fields u and theta (and a tracer q), trivial forcing, no transport, and
    one inner physics scheme that warms theta by 1 and moistens q by 1 per step. *)
Definition one (a : R) : vec unit := fun _ => a.
Definition heating (x : state unit) : state unit :=
  fun n => if String.eqb n "theta" then x n +v one 1 else if String.eqb n "q" then x n +v one 1 else x n.
Definition heated (b : R) (inner outer : nat) (acc : bool) : siqn unit :=
  mk_siqn [mk_fterm [Time_derivative] (fun x => x)] ["u"; "theta"; "q"]%string ["u"; "theta"]%string
    (1/2) 1 b outer inner acc (fun x => x) (fun x => x) [] None [] [] [heating] [].

Example heated_solves_systems b i o a :
  (forall r, mass_part (heated b i o a) (mass_solve (heated b i o a) r) = r) /\
  (forall r, (forall n, In n (names (heated b i o a)) -> linear_solve (heated b i o a) r n = vzero) ->
     forall n, In n (names (heated b i o a)) -> r n = vzero).
Proof. split; [intros r; cbn; sext; sunfold; ring|intros r H n Hn; exact (H n Hn)]. Qed.

Lemma Lx_heated b i o a x : L_explicit (residual_ (heated b i o a)) (1/2) 1 x = szero.
Proof. cbn. sext. sunfold. ring. Qed.
Lemma Li_heated b i o a x : L_implicit (residual_ (heated b i o a)) (1/2) 1 x = szero.
Proof. cbn. sext. sunfold. ring. Qed.

Lemma heated_rhs_theta b inner o a k xp x :
  inner_rhs (heated b inner o a) k xp xp x "theta"%string tt =
  if (Nat.ltb 0 k && a)%bool then b else xp "theta"%string tt + b - x "theta"%string tt.
Proof.
  unfold inner_rhs, apply_implicit. cbn [alpha_ dt_ heated mass_solve accelerator beta inner_physics]. rewrite (Li_heated b inner o a).
  destruct (Nat.ltb 0 k && a)%bool; destruct (Req_EM_T b 0) as [E|E]; cbn [fold_left];
    unfold zero_non_wind; cbn [names heated fold_left]; unfold ssub, sadd, sscal, sset, heating, szero, one; cbn; vunfold;
    try (rewrite E); ring.
Qed.
Lemma heated_inner_theta b inner o a xp : forall n k x,
  inner_loop (heated b inner o a) n k xp xp x "theta"%string tt =
  match n with
  | O => x "theta"%string tt
  | S m => if Nat.eqb k 0 then xp "theta"%string tt + b + (if a then INR m * b else 0)
           else if a then x "theta"%string tt + INR n * b else xp "theta"%string tt + b
  end.
Proof.
  induction n as [|n IH]; intros k x; [reflexivity|]. cbn [inner_loop]. rewrite IH.
  assert (S1 : inner_step (heated b inner o a) k xp xp x "theta"%string tt =
               x "theta"%string tt + (if (Nat.ltb 0 k && a)%bool then b else xp "theta"%string tt + b - x "theta"%string tt)).
  { unfold inner_step, qn_solve. cbn [linear_solve heated]. unfold sadd. change (fun x0 : state unit => x0) with (fun x0 : state unit => x0).
    unfold vadd. f_equal. rewrite zero_non_prognostics_at. cbn [names solver_prognostics heated existsb String.eqb Ascii.eqb Bool.eqb orb andb negb].
    apply heated_rhs_theta. }
  destruct n as [|n].
  - rewrite S1. destruct k; cbn [Nat.ltb Nat.leb Nat.eqb andb]; destruct a; cbn [INR]; ring.
  - cbn [Nat.eqb]. rewrite S1. rewrite !S_INR. destruct k; cbn [Nat.ltb Nat.leb Nat.eqb andb]; destruct a; ring.
Qed.

Lemma heated_outer_theta b inner o a xn k :
  (0 < inner)%nat ->
  snd (niter (S k) (outer_step (heated b inner o a) xn (compute_xstar (heated b inner o a) xn)) (compute_xstar (heated b inner o a) xn, xn))
    "theta"%string tt
  = xn "theta"%string tt + 1 + (if a then (INR inner - 1) * b else 0).
Proof.
  intros Hi. rewrite niter_S_out.
  assert (Hx : forall j, fst (niter j (outer_step (heated b inner o a) xn (compute_xstar (heated b inner o a) xn)) (compute_xstar (heated b inner o a) xn, xn))
     = compute_xstar (heated b inner o a) xn).
  { induction j as [|j IHj]; [reflexivity|]. rewrite niter_S_out.
    destruct (niter j _ _) as [xp x]. cbn [fst] in *. unfold outer_step. cbn [fst transports heated transport_fields fold_left]. exact IHj. }
  specialize (Hx k). destruct (niter k _ _) as [xp x]. cbn [fst] in Hx. subst xp. unfold outer_step. cbn [snd].
  rewrite copy_active_tracers_at. cbn [names solver_prognostics heated existsb String.eqb Ascii.eqb Bool.eqb orb andb negb].
  unfold transport_fields, apply_all_physics. cbn [transports fast_physics heated fold_left num_inner].
  change (mk_siqn _ _ _ _ _ _ _ _ _ _ _ _ _ _ _ _ _) with (heated b inner o a).
  rewrite heated_inner_theta. destruct inner as [|m]; [lia|]. cbn [Nat.eqb]. rewrite S_INR.
  assert (Hstar : compute_xstar (heated b (S m) o a) xn "theta"%string tt = xn "theta"%string tt + (1 - b)).
  { rewrite xstar_eq. cbn [alpha_ dt_ heated]. rewrite (Lx_heated b (S m) o a). cbn [mass_solve slow_physics inner_physics heated fold_left beta increments fold_right].
    unfold sadd, sscal, ssub, szero, heating, one. cbn. vunfold. ring. }
  rewrite Hstar. destruct a; ring.
Qed.

(** C30 fails with the accelerator (the default) and inner physics: a heating of 1 K per
    step warms by 1 + (num_inner - 1) * beta K, instead of the 1 K of the semi-implicit
    scheme, for every number of outer iterations.  Without the accelerator the answer is
    right. *)
Theorem accelerator_inner_physics_refuted :
  forall (b : R) (inner outer : nat) (xn : state unit), (0 < inner)%nat -> (0 < outer)%nat ->
  siqn_timestep (heated b inner outer true) xn "theta"%string tt = xn "theta"%string tt + 1 + (INR inner - 1) * b /\
  siqn_timestep (heated b inner outer false) xn "theta"%string tt = xn "theta"%string tt + 1.
Proof.
  intros b inner outer xn Hi Ho. destruct outer as [|k]; [lia|].
  split; unfold siqn_timestep; cbv zeta.
  - pose proof (heated_outer_theta b inner (S k) true xn k Hi) as H. cbn [num_outer heated final_steps] in *.
    destruct (niter (S k) _ _) as [p x]. cbn [snd fold_left] in *. exact H.
  - pose proof (heated_outer_theta b inner (S k) false xn k Hi) as H. cbn [num_outer heated final_steps] in *.
    destruct (niter (S k) _ _) as [p x]. cbn [snd fold_left] in *. rewrite H. ring.
Qed.
Print Assumptions accelerator_inner_physics_refuted.

(** C30 fails for tracers outside the linear solver: the implicit part of the inner
    physics never reaches them, so a moistening of 1 per step becomes 1 - beta. *)
Theorem inner_physics_tracer_refuted :
  forall (b : R) (inner outer : nat) (acc : bool) (xn : state unit), (0 < outer)%nat ->
  siqn_timestep (heated b inner outer acc) xn "q"%string tt = xn "q"%string tt + (1 - b).
Proof.
  intros b inner outer acc xn Ho. destruct outer as [|k]; [lia|]. unfold siqn_timestep. cbv zeta.
  cbn [num_outer heated final_steps]. change (mk_siqn _ _ _ _ _ _ _ _ _ _ _ _ _ _ _ _ _) with (heated b inner (S k) acc).
  set (F := outer_step (heated b inner (S k) acc) xn (compute_xstar (heated b inner (S k) acc) xn)).
  assert (Hx : forall j, fst (niter j F (compute_xstar (heated b inner (S k) acc) xn, xn)) = compute_xstar (heated b inner (S k) acc) xn).
  { induction j as [|j IHj]; [reflexivity|]. rewrite niter_S_out.
    destruct (niter j _ _) as [xp x]. cbn [fst] in *. unfold F, outer_step. cbn [fst transports heated transport_fields fold_left]. exact IHj. }
  rewrite niter_S_out. specialize (Hx k). destruct (niter k F _) as [xp x]. cbn [fst] in Hx. subst xp. unfold F, outer_step.
  cbn [fold_left]. rewrite copy_active_tracers_at. cbn [names solver_prognostics heated existsb String.eqb Ascii.eqb Bool.eqb orb andb negb].
  unfold transport_fields, apply_all_physics. cbn [transports fast_physics heated fold_left].
  change (mk_siqn _ _ _ _ _ _ _ _ _ _ _ _ _ _ _ _ _) with (heated b inner (S k) acc).
  rewrite xstar_eq. cbn [alpha_ dt_ heated]. rewrite (Lx_heated b inner (S k) acc). cbn [mass_solve slow_physics inner_physics heated fold_left beta increments fold_right].
  unfold sadd, sscal, ssub, szero, heating, one. cbn. vunfold. ring.
Qed.
Print Assumptions inner_physics_tracer_refuted.

(* ================= C29 ================= *)

(** C29.  For every value of alpha and number of spin-up steps, in every process (fresh
    object) that runs n steps numbered from k (k = 1, or the step found in a checkpoint):
    the steps numbered at most spinup_steps use alpha = 1, the others the user's alpha,
    both in the forcing and in the linear solver. *)
Theorem spinup_alpha :
  forall (alpha : R) (spinup_steps k n j : nat), (j < n)%nat ->
  nth_error (fst (spin_run alpha spinup_steps k n (spin_init alpha))) j
  = Some (if Nat.leb (k + j) spinup_steps then (1, 1) else (alpha, alpha)).
Proof.
  intros alpha S0 k n j Hj.
  assert (G : forall n k s j, (j < n)%nat ->
    (begun s = false -> spin_done s = false) ->
    (begun s = true -> spin_done s = false -> a_forcing s = 1 /\ a_solver s = 1) ->
    (spin_done s = true -> a_forcing s = alpha /\ a_solver s = alpha /\ (S0 < k)%nat) ->
    nth_error (fst (spin_run alpha S0 k n s)) j = Some (if Nat.leb (k + j) S0 then (1, 1) else (alpha, alpha))).
  { clear. induction n as [|n IH]; intros k s j Hj H1 H2 H3; [lia|]. cbn [spin_run].
    assert (H : let s' := spin_step alpha S0 k s in
        (a_forcing s', a_solver s') = (if Nat.leb k S0 then (1, 1) else (alpha, alpha)) /\
        (begun s' = true -> spin_done s' = false -> a_forcing s' = 1 /\ a_solver s' = 1) /\
        (spin_done s' = true -> a_forcing s' = alpha /\ a_solver s' = alpha /\ (S0 < k)%nat) /\
        (begun s' = false -> (S0 < k)%nat /\ a_forcing s' = alpha /\ a_solver s' = alpha /\ spin_done s' = true)).
    { cbv zeta. unfold spin_step. destruct s as [af as_ b d]. cbn [begun spin_done a_forcing a_solver] in *.
      destruct (Nat.ltb_spec k (S0 + 1)), (Nat.leb_spec (S0 + 1) k), (Nat.leb_spec k S0); try lia;
        destruct b, d; cbn [andb negb begun spin_done a_forcing a_solver]; 
        try (destruct (H3 eq_refl) as (? & ? & ?); try lia; subst);
        try (destruct (H2 eq_refl eq_refl); subst);
        try (specialize (H1 eq_refl); discriminate);
        repeat split; intros; try discriminate; auto. }
    cbv zeta in H. destruct H as (Ha & Hb & Hc & Hd).
    destruct (spin_run alpha S0 (S k) n (spin_step alpha S0 k s)) as [l s''] eqn:E.
    destruct j as [|j]; cbn [fst nth_error].
    - rewrite Nat.add_0_r, Ha. reflexivity.
    - replace (k + S j)%nat with (S k + j)%nat by lia.
      destruct (begun (spin_step alpha S0 k s)) eqn:Eb.
      + specialize (IH (S k) (spin_step alpha S0 k s) j ltac:(lia)). rewrite E in IH. apply IH.
        * congruence.
        * intros _ X. apply Hb; [reflexivity|exact X].
        * intros X. destruct (Hc X) as (A & B & C). repeat split; auto. 
      + (* not begun: finished already *)
        destruct (Hd eq_refl) as (A & B & C & D).
        assert (St : forall n k s, (S0 < k)%nat -> a_forcing s = alpha -> a_solver s = alpha -> spin_done s = true ->
           forall j, (j < n)%nat -> nth_error (fst (spin_run alpha S0 k n s)) j = Some (alpha, alpha)).
        { clear. induction n as [|n IH]; intros k s Hk A B D j Hj; [lia|]. cbn [spin_run].
          assert (Es : spin_step alpha S0 k s = s).
          { unfold spin_step. replace (Nat.ltb k (S0 + 1)) with false by (symmetry; apply Nat.ltb_ge; lia).
            rewrite D. cbn. rewrite Bool.andb_false_r. reflexivity. }
          rewrite Es. destruct (spin_run alpha S0 (S k) n s) as [l s''] eqn:E. destruct j as [|j]; cbn; [congruence|].
          specialize (IH (S k) s ltac:(lia) A B D j ltac:(lia)). rewrite E in IH. exact IH. }
        specialize (St n (S k) (spin_step alpha S0 k s) ltac:(lia) B C D j ltac:(lia)). rewrite E in St.
        cbn [fst] in St. rewrite St. destruct (Nat.leb_spec (S k + j) S0); [lia|reflexivity]. }
  apply G; cbn; try discriminate; auto.
Qed.
Print Assumptions spinup_alpha.

(** C29 fails when one timestepper object is run twice.  Two spin-up steps: if the first
    run has three steps, the second run has no spin-up; if the first run stops after one
    step, the second run repeats it, with three spin-up steps in all. *)
Theorem spinup_second_run_refuted :
  forall alpha : R,
  (let s := snd (spin_run alpha 2 1 3 (spin_init alpha)) in
   fst (spin_run alpha 2 1 3 s) = [(alpha, alpha); (alpha, alpha); (alpha, alpha)]) /\
  (let r1 := spin_run alpha 2 1 1 (spin_init alpha) in
   (fst r1 ++ fst (spin_run alpha 2 1 3 (snd r1)))%list = [(1, 1); (1, 1); (1, 1); (alpha, alpha)]).
Proof. intros alpha. split; reflexivity. Qed.
Print Assumptions spinup_second_run_refuted.

(** C29 does not extend to the transporting velocity: with off_centred_u its weight is
    the user's alpha also in the spin-up steps, in which the off-centring is 1. *)
Theorem spinup_transporting_velocity_refuted :
  forall alpha, alpha <> 1 ->
  nth_error (fst (spin_run alpha 5 1 1 (spin_init alpha))) 0 = Some (1, 1) /\ alpha_u true alpha <> 1.
Proof. intros alpha H. split; [reflexivity|exact H]. Qed.
Print Assumptions spinup_transporting_velocity_refuted.

(* ================= C31 ================= *)
Open Scope Q_scope.

Lemma ref_loop_every_step {X : Type} (f dt : Q) : 0 <= f -> 0 < dt ->
  forall n t (xs : nat -> X) r, (exists l, last_update r = Some l /\ l < t) ->
  exists r', ref_loop (Some f) (S n) t dt xs r = Ok r' /\ x_ref r' = xs n /\ solver_ref r' = xs n.
Proof.
  intros Hf Hdt. induction n as [|n IH]; intros t xs r (l & El & Hl).
  - cbn [ref_loop ref_update]. rewrite El.
    destruct (Qle_bool (t + f) l) eqn:E; [apply Qle_bool_iff in E; lra|]. cbn [negb]. eexists; repeat split.
  - remember (S n) as m. cbn [ref_loop ref_update]. rewrite El.
    destruct (Qle_bool (t + f) l) eqn:E; [apply Qle_bool_iff in E; lra|]. cbn [negb]. subst m.
    destruct (IH (t + dt) (fun k => xs (S k)) (mk_refs (Some t) (to_update r) (initialised r) (xs O) (xs O))) as (r' & E1 & E2 & E3).
    { exists t. split; [reflexivity|lra]. }
    exists r'. split; [exact E1|]. split; assumption.
Qed.

(** C31 fails: with any update interval f >= 0 the profiles are replaced in every step:
    after n steps the profile is the state at the start of the last step. *)
Theorem reference_updated_every_step_refuted :
  forall (X : Type) (f t dt : Q) (xs : nat -> X) (r r0 : refs X) (n : nat),
  0 <= f -> 0 < dt ->
  ref_run_start (Some f) t dt None r0 = Ok r ->
  exists r', ref_loop (Some f) (S n) t dt xs r = Ok r' /\ x_ref r' = xs n /\ solver_ref r' = xs n.
Proof.
  intros X f t dt xs r r0 n Hf Hdt H. cbn in H. injection H as <-.
  apply (ref_loop_every_step f dt Hf Hdt). exists (t - dt). split; [reflexivity|lra].
Qed.
Print Assumptions reference_updated_every_step_refuted.

(** C31.  Without an update interval the profiles never change, over any number of
    steps, and the linear solver uses them from the first step on. *)
Theorem reference_never_updated :
  forall (X : Type) (t dt : Q) (xs : nat -> X) (r0 : refs X) (pick_up : option (X * option Q)) (n : nat) (r : refs X),
  ref_run_start None t dt pick_up r0 = Ok r ->
  x_ref r = match pick_up with Some (x, _) => x | None => x_ref r0 end /\
  exists r', ref_loop None (S n) t dt xs r = Ok r' /\ x_ref r' = x_ref r /\ solver_ref r' = x_ref r.
Proof.
  intros X t dt xs r0 pick_up n r H.
  assert (T : to_update r = true /\ x_ref r = match pick_up with Some (x, _) => x | None => x_ref r0 end).
  { destruct pick_up as [[x l]|]; cbn in H.
    - injection H as <-. split; reflexivity.
    - destruct (initialised r0); [|discriminate]. injection H as <-. split; reflexivity. }
  destruct T as [T Ex]. split; [exact Ex|]. cbn [ref_loop ref_update]. rewrite T.
  set (r1 := mk_refs (last_update r) false (initialised r) (x_ref r) (x_ref r)).
  assert (G : forall n t xs, ref_loop None n t dt xs r1 = Ok r1).
  { induction n0 as [|n0 IH]; intros t0 xs0; [reflexivity|]. cbn [ref_loop ref_update]. cbn [to_update r1]. apply IH. }
  exists r1. split; [apply G|split; reflexivity].
Qed.
Print Assumptions reference_never_updated.

(** C31: a run that neither picks up nor updates needs reference profiles. *)
Theorem reference_required :
  forall (X : Type) (t dt : Q) (r0 : refs X),
  (exists r, ref_run_start None t dt None r0 = Ok r) <-> initialised r0 = true.
Proof. intros X t dt r0. cbn. destruct (initialised r0); split; eauto. intros [r H]; discriminate. discriminate. Qed.
Print Assumptions reference_required.

(** C31: with an update interval, every run that picks up a recorded update time not in
    the future succeeds, and starts by an update. *)
Theorem reference_pick_up_partial :
  forall (X : Type) (f t dt : Q) (xs : nat -> X) (r0 : refs X) (x : X) (l : Q) (n : nat),
  0 <= f -> 0 < dt -> l < t ->
  exists r r', ref_run_start (Some f) t dt (Some (x, Some l)) r0 = Ok r /\
    ref_loop (Some f) (S n) t dt xs r = Ok r' /\ x_ref r' = xs n /\ solver_ref r' = xs n.
Proof.
  intros X f t dt xs r0 x l n Hf Hdt Hl. cbn [ref_run_start]. eexists. 
  destruct (ref_loop_every_step f dt Hf Hdt n t xs (set_refs x (Some l) r0)) as (r' & A & B & C); [exists l; split; [reflexivity|exact Hl]|].
  exists r'. split; [reflexivity|]. split; [exact A|split; assumption].
Qed.
Print Assumptions reference_pick_up_partial.

(** C31 fails: the checkpoint written before the first step records no update time
    (io.py l.573-581); picking up from it with an update interval raises in the first
    step. *)
Theorem reference_pick_up_initial_refuted :
  forall (X : Type) (f t dt : Q) (xs : nat -> X) (r0 : refs X) (x : X) (n : nat),
  exists r, ref_run_start (Some f) t dt (Some (x, None)) r0 = Ok r /\
    ref_loop (Some f) (S n) t dt xs r = Err TypeError.
Proof. intros X f t dt xs r0 x n. eexists. split; reflexivity. Qed.
Print Assumptions reference_pick_up_initial_refuted.

(** C29.  The transporting velocity is the average of the velocities at the two time levels, unless off-centring is
    asked for, when it is (1 - alpha) u^n + alpha u^(n+1). *)
Theorem transporting_velocity_weights :
  forall (I : Type) (alpha : R) (xn xnp1 : state I),
  transporting_velocity false alpha xn xnp1 = (1/2) *v xn "u"%string +v (1/2) *v xnp1 "u"%string /\
  transporting_velocity true alpha xn xnp1 = (1 - alpha) *v xn "u"%string +v alpha *v xnp1 "u"%string.
Proof. intros I alpha xn xnp1. unfold transporting_velocity, alpha_u. split; apply functional_extensionality; intros i; unfold vadd, vscal, vsub; field. Qed.
Print Assumptions transporting_velocity_weights.
