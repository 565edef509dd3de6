(** Energy stability of the converged semi-implicit step (no transport, no physics).  C141. *)
From Coq Require Import Reals Lra Lia List String.
From Verif Require Import Base Vec Siqn SiqnFacts SiqnProps.
Open Scope R_scope.

(** P pairs a state with a residual (the residual's form tested with the state); the energy of x is P x (M x), M the mass
    (time derivative) terms.  States that agree on the equation's fields have the same pairings. *)
Definition agree {I} (c : siqn I) (x y : state I) : Prop := forall n, In n (names c) -> x n = y n.
Definition state_pairing {I} (c : siqn I) (P : state I -> state I -> R) : Prop :=
  (forall x y z, P (sadd x y) z = P x z + P y z) /\ (forall a x z, P (sscal a x) z = a * P x z) /\
  (forall x y z, P z (sadd x y) = P z x + P z y) /\ (forall a x z, P z (sscal a x) = a * P z x) /\
  (forall x y z, agree c x y -> P x z = P y z).
Definition energy_mass {I} (c : siqn I) (P : state I -> state I -> R) (M : state I -> state I) : Prop :=
  (forall x y, M (sadd x y) = sadd (M x) (M y)) /\ (forall x y z, agree c x y -> P z (M x) = P z (M y)) /\
  (forall x y, P x (M y) = P y (M x)) /\ (forall x, 0 <= P x (M x)).
Definition energy_forcing {I} (P : state I -> state I -> R) (F : state I -> state I) : Prop :=
  (forall x y, F (sadd x y) = sadd (F x) (F y)) /\ (forall a x, F (sscal a x) = sscal a (F x)) /\ (forall x, 0 <= P x (F x)).

(** Off-centring alpha >= 1/2: the energy does not grow, for any dt >= 0.  Terms that are always implicit (sponge) may be present if alpha = 1. *)
Theorem siqn_energy_stable : forall (I : Type) (c : siqn I) (P : state I -> state I -> R) (xn x : state I),
  state_pairing c P -> energy_mass c P (mass_part c) -> energy_forcing P (forcing_part c) ->
  transports c = [] -> slow_physics c = [] -> fast_physics c = [] -> inner_physics c = [] ->
  (forall n, In n (names c) -> In n (solver_prognostics c)) ->
  (forall y, hydro_part c y = szero) ->
  ((forall y, implicit_part c y = szero) \/ (alpha_ c = 1 /\ forall y, 0 <= P y (implicit_part c y))) ->
  1/2 <= alpha_ c <= 1 -> 0 <= dt_ c ->
  semi_implicit_solution c xn x ->
  P x (mass_part c x) <= P xn (mass_part c xn).
Proof.
  intros I c P xn x (Pa & Ps & Pra & Prs & Pc) (Ma & Mc & Ms & Mp) (Fa & Fs & Fp) Ht Hs Hf Hi Hn Hh Him Hal Hdt (Fex & Fim & xs & xp & E1 & E2 & E3 & _ & E4 & E5).
  rewrite Hh in E1, E2. rewrite Hs, Hi in E3. rewrite Ht in E4. cbn [fold_left map] in E3, E4. rewrite Hf, Hi in E5. cbn [fold_left] in E5.
  set (al := alpha_ c) in *. set (dt := dt_ c) in *.
  set (d := sadd Fex Fim). 
  assert (Ax : agree c x (sadd xn d)).
  { intros n In_. rewrite (E5 n In_ (Hn n In_)). rewrite (E4 n) by (intros []). rewrite E3. unfold d. unfold increments, sadd, sscal. cbn.
    apply functional_extensionality; intros i. vunfold. unfold szero. ring_simplify. vunfold. ring. }
  set (m := sadd (sscal al x) (sscal (1 - al) xn)).
  assert (Md : P m (mass_part c d) = - dt * P m (forcing_part c m) - dt * P m (implicit_part c x)).
  { unfold d. rewrite Ma, Pra, E1, E2. assert (Fm : forcing_part c m = sadd (sscal al (forcing_part c x)) (sscal (1 - al) (forcing_part c xn))) by (unfold m; rewrite Fa, !Fs; reflexivity). rewrite Fm.
    assert (Sb : forall u v, P m (ssub u v) = P m u - P m v).
    { intros u v. replace (ssub u v) with (sadd u (sscal (-1) v)) by (sext; sunfold; ring). rewrite Pra, Prs. ring. }
    assert (Z : P m szero = 0). { replace (@szero I) with (sscal 0 (@szero I)) by (sext; sunfold; ring). rewrite Prs. ring. }
    rewrite Pra, !Sb, !Prs, Z, Pra, !Prs. ring. }
  assert (Neg : P m (mass_part c d) <= 0).
  { rewrite Md. pose proof (Fp m). assert (0 <= P m (implicit_part c x)).
    { destruct Him as [H0|[H1 H0]].
      - rewrite H0. replace (@szero I) with (sscal 0 (@szero I)) by (sext; sunfold; ring). rewrite Prs. lra.
      - replace m with x; [apply H0|]. unfold m. rewrite H1. sext. sunfold. ring. }
    assert (0 <= dt * P m (forcing_part c m)) by (apply Rmult_le_pos; assumption).
    assert (0 <= dt * P m (implicit_part c x)) by (apply Rmult_le_pos; assumption). lra. }
  (* E(x) - E(xn) = 2 <xn, d> + <d, d> ; <m, d> = <xn, d> + al <d, d> *)
  assert (Ex : P x (mass_part c x) = P xn (mass_part c xn) + 2 * P xn (mass_part c d) + P d (mass_part c d)).
  { rewrite (Pc x (sadd xn d)) by exact Ax. rewrite (Mc x (sadd xn d)) by exact Ax. rewrite Ma, !Pra, !Pa. rewrite (Ms d xn). ring. }
  assert (Em : P m (mass_part c d) = P xn (mass_part c d) + al * P d (mass_part c d)).
  { unfold m. rewrite Pa, !Ps. rewrite (Pc x (sadd xn d)) by exact Ax. rewrite Pa. ring. }
  pose proof (Mp d). assert (0 <= (2 * al - 1) * P d (mass_part c d)) by (apply Rmult_le_pos; lra). lra.
Qed.
(** The same for the iteration itself: whenever an outer iteration has converged. *)
Theorem converged_siqn_energy_stable : forall (I : Type) (c : siqn I) (P : state I -> state I -> R) (xn : state I) (k : nat),
  state_pairing c P -> energy_mass c P (mass_part c) -> energy_forcing P (forcing_part c) ->
  transports c = [] -> slow_physics c = [] -> fast_physics c = [] -> inner_physics c = [] ->
  (forall n, In n (names c) -> In n (solver_prognostics c)) ->
  (forall y, hydro_part c y = szero) ->
  ((forall y, implicit_part c y = szero) \/ (alpha_ c = 1 /\ forall y, 0 <= P y (implicit_part c y))) ->
  1/2 <= alpha_ c <= 1 -> 0 <= dt_ c ->
  (forall b, mass_part c (mass_solve c b) = b) ->
  (forall r, (forall n, In n (names c) -> linear_solve c r n = vzero) -> forall n, In n (names c) -> r n = vzero) ->
  let xstar := compute_xstar c xn in
  let '(xp, x) := niter k (outer_step c xn xstar) (xstar, xn) in
  let xp' := transport_fields c xn x xstar xp in
  (forall n, In n (names c) -> inner_step c 0 xp' (apply_all_physics (fast_physics c) xp') x n = x n) ->
  P x (mass_part c x) <= P xn (mass_part c xn).
Proof.
  intros I c P xn k HP HM HF Ht Hs Hf Hi Hn Hh Him Hal Hdt Sm Sl xstar.
  pose proof (siqn_fixed_point I c xn k ltac:(rewrite Ht; constructor) Sm Sl) as K. cbv zeta in K. fold xstar in K.
  destruct (niter k (outer_step c xn xstar) (xstar, xn)) as [xp x]. intros xp' Hfix.
  apply (siqn_energy_stable I c P xn x); try assumption. apply K. exact Hfix.
Qed.
(** Friction on one wind component. *)
Definition damped (al dt l : R) : siqn unit :=
  mk_siqn [mk_fterm [Time_derivative] (fun x => x); mk_fterm [] (fun x => sscal l x)] ["u"]%string ["u"]%string
    al dt 0 1 1 false (fun x => x) (fun r => sscal (/ (1 + al * dt * l)) r) [] None [] [] [] [].
Definition u_pairing (x y : state unit) : R := x "u"%string tt * y "u"%string tt.
Lemma damped_mass al dt l x : mass_part (damped al dt l) x = x.
Proof. unfold mass_part, fsum. cbn. sext. sunfold. ring. Qed.
Lemma damped_forcing al dt l x : forcing_part (damped al dt l) x = sscal l x.
Proof. unfold forcing_part, fsum. cbn. sext. sunfold. ring. Qed.
Lemma damped_solution al dt l xn : 1 + al * dt * l <> 0 ->
  semi_implicit_solution (damped al dt l) xn (sscal ((1 - (1 - al) * dt * l) / (1 + al * dt * l)) xn).
Proof.
  intros H. exists (sscal (- ((1 - al) * dt * l)) xn), (sscal (- (al * dt * l) * ((1 - (1 - al) * dt * l) / (1 + al * dt * l))) xn),
    (sscal (1 - (1 - al) * dt * l) xn), (sscal (1 - (1 - al) * dt * l) xn).
  rewrite !damped_mass, !damped_forcing. unfold hydro_part, implicit_part, fsum. cbn.
  split; [sext; sunfold; ring|]. split; [sext; sunfold; ring|]. split; [sext; sunfold; ring|].
  split; [intros n s []|]. split; [reflexivity|]. intros n _ _. apply functional_extensionality; intros i. sunfold. field. exact H.
Qed.
Example siqn_stability_hypotheses_met : forall al dt l, 1/2 <= al <= 1 -> 0 <= dt -> 0 <= l ->
  let c := damped al dt l in
  state_pairing c u_pairing /\ energy_mass c u_pairing (mass_part c) /\ energy_forcing u_pairing (forcing_part c) /\
  (forall y, hydro_part c y = szero) /\ (forall y, implicit_part c y = szero) /\
  forall xn, semi_implicit_solution c xn (sscal ((1 - (1 - al) * dt * l) / (1 + al * dt * l)) xn).
Proof.
  intros al dt l Ha Hd Hl c.
  assert (K : 0 <= al * dt * l) by (repeat apply Rmult_le_pos; lra).
  split; [|split; [|split; [|split; [|split]]]].
  - unfold u_pairing. repeat split; intros; sunfold; try ring. rewrite (H "u"%string) by (left; reflexivity). reflexivity.
  - unfold u_pairing. pose proof (damped_mass al dt l : forall x, mass_part c x = x) as Dm. repeat split; intros; rewrite ?Dm.
    + reflexivity.
    + rewrite (H "u"%string) by (left; reflexivity). reflexivity.
    + ring.
    + apply Rle_0_sqr.
  - unfold u_pairing. repeat split; intros; rewrite ?(damped_forcing al dt l : forall x, forcing_part c x = sscal l x).
    + sext. sunfold. ring.
    + sext. sunfold. ring.
    + sunfold. assert (0 <= x "u"%string tt * x "u"%string tt) by apply Rle_0_sqr. nra.
  - reflexivity.
  - reflexivity.
  - intros xn. apply damped_solution. lra.
Qed.
(** The bound on the off-centring is sharp: for every alpha < 1/2 some time step makes the energy of pure friction grow. *)
Theorem siqn_small_offcentring_grows : forall al, 0 <= al < 1/2 -> exists dt,
  let c := damped al dt 1 in 0 < dt /\ forall xn, xn "u"%string tt <> 0 -> exists x, semi_implicit_solution c xn x /\
    u_pairing xn (mass_part c xn) < u_pairing x (mass_part c x).
Proof.
  intros al Ha. assert (Hp : 0 < 1 - 2 * al) by lra. exists (3 / (1 - 2 * al)). set (dt := 3 / (1 - 2 * al)). cbv zeta.
  assert (Hd : 0 < dt) by (apply Rdiv_lt_0_compat; lra). split; [exact Hd|]. intros xn Hx.
  assert (K : 0 <= al * dt * 1) by (rewrite Rmult_1_r; apply Rmult_le_pos; [lra|apply Rlt_le; exact Hd]).
  exists (sscal ((1 - (1 - al) * dt * 1) / (1 + al * dt * 1)) xn). split; [apply damped_solution; lra|].
  rewrite !damped_mass. unfold u_pairing. sunfold. set (v := xn "u"%string tt) in *. set (g := (1 - (1 - al) * dt * 1) / (1 + al * dt * 1)).
  assert (E : g = - ((2 + al * dt) / (1 + al * dt))).
  { unfold g, dt. field. split; lra. }
  assert (G : 1 < (2 + al * dt) / (1 + al * dt)).
  { apply Rmult_lt_reg_r with (1 + al * dt); [lra|]. unfold Rdiv. rewrite Rmult_assoc, Rinv_l by lra. lra. }
  rewrite E. set (q := (2 + al * dt) / (1 + al * dt)) in *. assert (0 < v * v) by (destruct (Rtotal_order v 0) as [|[|]]; nra).
  assert (1 < q * q) by nra. nra.
Qed.
