(** Theorems about saturated_ and unsaturated_hydrostatic_balance: C107. *)
From Coq Require Import Reals Lra Lia FunctionalExtensionality.
From Verif Require Import Base Vec Thermo ThermoProps Hydrostatic.
Open Scope R_scope.

Lemma outer_loop_never_raises : forall max_outer step s, exists b s', outer_loop max_outer step s = Ok (b, s').
Proof.
  intros max_outer step s. unfold outer_loop.
  assert (H : forall n i s, (i + n = max_outer)%nat -> exists b s', for_break_res n i (fun i s => let (stop, s) := step s in
     if stop then Ok (true, s) else if Nat.eqb i max_outer then Err RuntimeError else Ok (false, s)) s = Ok (b, s')).
  { induction n as [|n IH]; intros i t Hi; [eexists; eexists; reflexivity|]. cbn [for_break_res]. destruct (step t) as [stop t'].
    destruct stop; [eexists; eexists; reflexivity|]. destruct (Nat.eqb_spec i max_outer); [lia|]. apply IH. lia. }
  apply H. reflexivity.
Qed.
(** What the loop returns: after fewer than max_outer steps that did not stop, either a step that stopped, or, after
    exactly max_outer of them, no convergence. *)
Fixpoint iterate (step : moist_state -> bool * moist_state) (n : nat) (s : moist_state) : moist_state :=
  match n with O => s | S n => snd (step (iterate step n s)) end.
Lemma outer_loop_spec : forall max_outer step s b s', outer_loop max_outer step s = Ok (b, s') ->
  if b then exists n, (n < max_outer)%nat /\ (forall k, (k < n)%nat -> fst (step (iterate step k s)) = false) /\ step (iterate step n s) = (true, s')
  else (forall k, (k < max_outer)%nat -> fst (step (iterate step k s)) = false) /\ s' = iterate step max_outer s.
Proof.
  intros max_outer step s b s' H. unfold outer_loop in H.
  assert (G : forall n i t, (i + n = max_outer)%nat -> t = iterate step i s -> (forall k, (k < i)%nat -> fst (step (iterate step k s)) = false) ->
     for_break_res n i (fun i s => let (stop, s) := step s in
       if stop then Ok (true, s) else if Nat.eqb i max_outer then Err RuntimeError else Ok (false, s)) t = Ok (b, s') ->
     if b then exists n, (n < max_outer)%nat /\ (forall k, (k < n)%nat -> fst (step (iterate step k s)) = false) /\ step (iterate step n s) = (true, s')
     else (forall k, (k < max_outer)%nat -> fst (step (iterate step k s)) = false) /\ s' = iterate step max_outer s).
  { induction n as [|n IH]; intros i t Hi Ht Hk E.
    - cbn [for_break_res] in E. injection E as <- <-. replace max_outer with i by lia. split; [exact Hk|exact Ht].
    - cbn [for_break_res] in E. destruct (step t) as [stop t'] eqn:Es. destruct stop.
      + injection E as <- <-. exists i. split; [lia|]. split; [exact Hk|]. rewrite <- Ht. exact Es.
      + destruct (Nat.eqb_spec i max_outer); [discriminate|]. apply (IH (S i) t'); [lia| | |exact E].
        * cbn [iterate]. rewrite <- Ht, Es. reflexivity.
        * intros k Hk'. destruct (Nat.eq_dec k i) as [->|]; [rewrite <- Ht, Es; reflexivity|]. apply Hk. lia. }
  apply (G max_outer 0%nat s); [lia|reflexivity|lia|exact H].
Qed.

(** The documented RuntimeError is never raised: the index of a loop over range(max) never equals max.  If no iterate meets
    the tolerance the last one is returned as if it had converged. *)
Theorem nonconvergence_not_reported_refuted : forall P solve recover err max_outer,
  (forall max_inner theta_d H rho_init theta_at,
     unsaturated P solve recover err max_outer max_inner theta_d H rho_init theta_at <> Err RuntimeError /\
     ((forall a b, 1 <= err a b) -> exists s e, unsaturated P solve recover err max_outer max_inner theta_d H rho_init theta_at = Ok (false, s, e))) /\
  (forall max_theta max_inner te mr_t rho_init,
     saturated P solve recover err max_outer max_theta max_inner false te mr_t rho_init <> Err RuntimeError /\
     ((forall a b, 1 <= err a b) -> exists s, saturated P solve recover err max_outer max_theta max_inner false te mr_t rho_init = Ok (false, s))).
Proof.
  assert (B : forall x t, 1 <= x -> t <= 1 -> below x t = false) by (intros x t H1 H2; unfold below; destruct (Rlt_dec x t); [lra|reflexivity]).
  assert (T : / 10 ^ 10 <= 1 /\ / 10 ^ 8 <= 1) by (split; lra).
  intros P solve recover err max_outer. split.
  - intros max_inner theta_d H rho_init theta_at. unfold unsaturated.
    match goal with |- context [outer_loop ?m ?st ?s0] => destruct (outer_loop_never_raises m st s0) as (b & s' & E); set (step := st) in *; set (s := s0) in * end.
    rewrite E. split; [discriminate|]. intros He. destruct b; [|eexists; eexists; reflexivity]. apply outer_loop_spec in E. destruct E as (n & _ & _ & E).
    exfalso. unfold step, unsat_step in E. cbv zeta in E. rewrite B in E; [discriminate|apply He|apply T].
  - intros max_theta max_inner te mr_t rho_init. unfold saturated.
    match goal with |- context [outer_loop ?m ?st ?s0] => destruct (outer_loop_never_raises m st s0) as (b & s' & E); set (step := st) in *; set (s := s0) in * end.
    rewrite E. split; [discriminate|]. intros He. destruct b; [|eexists; reflexivity]. apply outer_loop_spec in E. destruct E as (n & _ & _ & E).
    exfalso. unfold step, sat_step in E. cbv zeta in E. rewrite B in E; [discriminate|apply He|apply T].
Qed.
(** Asking saturated_hydrostatic_balance for the Exner pressure fails. *)
Theorem saturated_exner_refuted : forall P solve recover err max_outer max_theta max_inner te mr_t rho_init,
  saturated P solve recover err max_outer max_theta max_inner true te mr_t rho_init = Err AttributeError.
Proof.
  intros. unfold saturated. match goal with |- context [outer_loop ?m ?st ?s0] => destruct (outer_loop_never_raises m st s0) as (b & s' & E) end.
  rewrite E. reflexivity.
Qed.
(** Converged or not, the density returned is in hydrostatic balance with the potential temperature and moisture returned. *)
Theorem moist_density_balanced : forall P solve recover err max_outer,
  (forall max_inner theta_d H rho_init theta_at b s e, unsaturated P solve recover err max_outer max_inner theta_d H rho_init theta_at = Ok (b, s, e) -> m_rho s = solve (m_theta s) (m_rv s)) /\
  (forall max_theta max_inner te mr_t rho_init b s, saturated P solve recover err max_outer max_theta max_inner false te mr_t rho_init = Ok (b, s) -> m_rho s = solve (m_theta s) mr_t).
Proof.
  intros P solve recover err max_outer. split.
  - intros max_inner theta_d H rho_init theta_at b s e E. unfold unsaturated in E.
    match type of E with context [outer_loop ?m ?st ?s0] => destruct (outer_loop m st s0) as [[b' s']|]; [|discriminate] end. injection E as <- <- <-. reflexivity.
  - intros max_theta max_inner te mr_t rho_init b s E. unfold saturated in E.
    match type of E with context [outer_loop ?m ?st ?s0] => destruct (outer_loop m st s0) as [[b' s']|]; [|discriminate] end. injection E as <- <-. reflexivity.
Qed.

(** ** unsaturated *)
Lemma damp1 old new : damp 1 old new = new.
Proof. apply functional_extensionality. intros k. unfold damp. ring. Qed.
Lemma for_break_invariant {S} (I : S -> Prop) (body : nat -> S -> bool * S) : (forall i s, I s -> I (snd (body i s))) -> forall n i s, I s -> I (snd (for_break n i body s)).
Proof.
  intros H. induction n as [|n IH]; intros i s Hs; [exact Hs|]. cbn [for_break]. pose proof (H i s Hs) as H'. destruct (body i s) as [[|] s']; [exact H'|]. apply IH. exact H'.
Qed.
(** after the first pass of the inner loop theta is the virtual potential temperature of theta_d and the vapour *)
Definition virtual_theta (P : cparams) (theta_d : nodal) (s : moist_state) : Prop := m_theta s = fun k => theta_d k * (1 + m_rv s k / (R_d P / R_v P)).
Lemma unsat_inner_virtual P err max_inner theta_d H s : (0 < max_inner)%nat -> virtual_theta P theta_d (unsat_inner P err max_inner theta_d H s).
Proof.
  intros Hm. destruct max_inner as [|m]; [lia|]. unfold unsat_inner. cbn [for_break].
  assert (HB : forall s0 : moist_state, virtual_theta P theta_d (set_test (RH_expr P (set_theta (fun k => theta_d k * (1 + m_rv (set_rv (damp 1 (m_rv s0) (r_v_expr P H s0)) s0) k / (R_d P / R_v P))) (set_rv (damp 1 (m_rv s0) (r_v_expr P H s0)) s0)))
     (set_theta (fun k => theta_d k * (1 + m_rv (set_rv (damp 1 (m_rv s0) (r_v_expr P H s0)) s0) k / (R_d P / R_v P))) (set_rv (damp 1 (m_rv s0) (r_v_expr P H s0)) s0)))) by (intros; reflexivity).
  destruct (below _ _); [apply HB|]. apply (for_break_invariant (virtual_theta P theta_d)); [intros i s0 _; apply HB|apply HB].
Qed.
(** Convergence: the relative humidity of the state returned is within the tolerance of the one asked for, the Exner pressure
    returned is that of the state, and the temperature is that of the dry potential temperature asked for; unless the first
    guess itself met the tolerance. *)
Theorem unsaturated_converged : forall P solve recover err max_outer max_inner theta_d H rho_init theta_at s e,
  unsaturated P solve recover err max_outer max_inner theta_d H rho_init theta_at = Ok (true, s, e) -> (0 < max_inner)%nat ->
  let T k := T_of P (m_theta s k) (exner_pressure P (recover (m_rho s) k) (m_theta s k)) (Some (m_rv s k)) in
  let p k := p_of P (exner_pressure P (recover (m_rho s) k) (m_theta s k)) in
  err (fun k => RH P (m_rv s k) (T k) (p k)) H < / 10^10 /\
  e = (fun k => exner_pressure P (m_rho s k) (theta_at (m_theta s) k)) /\
  (virtual_theta P theta_d s \/ (m_theta s = (fun k => theta_d k * (101/100)) /\ m_rv s = fun _ => 1/100)).
Proof.
  intros P solve recover err max_outer max_inner theta_d H rho_init theta_at s e E Hm T p. unfold unsaturated in E.
  match type of E with context [outer_loop ?m ?st ?s0] => set (step := st) in E; set (s_init := s0) in E; destruct (outer_loop m step s_init) as [[b' s']|] eqn:EL; [|discriminate] end.
  injection E as -> <- <-. apply outer_loop_spec in EL. destruct EL as (n & Hn & Hk & EL).
  set (t := iterate step n s_init) in *. unfold step, unsat_step in EL. cbv zeta in EL. destruct (below _ _) eqn:Hb; [|discriminate]. injection EL as <-.
  rewrite damp1 in *. cbn [set_rho set_av set_test m_theta m_rv m_rho m_rho_av m_test] in *.
  split; [|split; [reflexivity|]].
  - unfold below in Hb. destruct (Rlt_dec _ _) as [L|]; [|discriminate]. exact L.
  - destruct n as [|n]; [right; split; reflexivity|]. left. unfold t. cbn [iterate]. specialize (Hk n ltac:(lia)). unfold step, unsat_step in Hk |- *. cbv zeta in Hk |- *.
    destruct (below _ _); [discriminate|]. cbn [snd fst]. apply unsat_inner_virtual. exact Hm.
Qed.
(** In the first case the temperature is theta_d times the Exner pressure: theta_d is the dry potential temperature of the state. *)
Theorem virtual_theta_temperature : forall P theta_d s exner k, admissible P -> virtual_theta P theta_d s -> 0 <= m_rv s k ->
  T_of P (m_theta s k) exner (Some (m_rv s k)) = theta_d k * exner.
Proof.
  intros P theta_d s exner k HP Hv Hr. rewrite Hv. unfold T_of. pose proof (ad_Rd P HP). pose proof (ad_Rv P HP).
  assert (0 <= m_rv s k * R_v P / R_d P). { apply Rmult_le_pos; [apply Rmult_le_pos; lra|]. left. apply Rinv_0_lt_compat. assumption. }
  replace (m_rv s k / (R_d P / R_v P)) with (m_rv s k * R_v P / R_d P) by (field; split; lra).
  set (a := m_rv s k * R_v P / R_d P) in *. field. lra.
Qed.
(** The exception: if the first guess (theta = 1.01 theta_d, r_v = 0.01) has the humidity asked for, it is returned although
    theta is then not the virtual potential temperature of theta_d. *)
Theorem unsaturated_first_guess_refuted : forall solve recover theta_at max_inner theta_d rho_init, theta_d 0%nat <> 0 ->
  exists H err, (forall a, err a a = 0) /\
  exists s e, unsaturated default_params solve recover err 40 max_inner theta_d H rho_init theta_at = Ok (true, s, e) /\ ~ virtual_theta default_params theta_d s.
Proof.
  intros solve recover theta_at max_inner theta_d rho_init Hd.
  set (g := {| m_theta := fun k => theta_d k * (101/100); m_rho := solve (fun k => theta_d k * (101/100)) (fun _ => 1/100); m_rv := fun _ => 1/100;
               m_rho_av := recover (solve (fun k => theta_d k * (101/100)) (fun _ => 1/100)); m_test := fun _ => 0 |}).
  exists (RH_expr default_params g), (fun a b => Rabs (a 0%nat - b 0%nat)). split; [intros a; replace (a 0%nat - a 0%nat) with 0 by ring; apply Rabs_R0|].
  unfold unsaturated, outer_loop. cbn [for_break_res]. unfold unsat_step. cbv zeta. rewrite damp1. cbn [set_rho set_av set_test m_theta m_rv m_rho m_rho_av m_test].
  replace (below _ _) with true.
  2:{ symmetry. match goal with |- below ?x _ = true => replace x with 0 end.
      - unfold below. destruct (Rlt_dec 0 (/ 10 ^ 10)) as [|n]; [reflexivity|]. exfalso. apply n. lra.
      - symmetry. rewrite <- Rabs_R0 at 1. f_equal. apply Rminus_diag_eq. reflexivity. }
  eexists. eexists. split; [reflexivity|]. unfold virtual_theta. cbn [set_rho m_theta m_rv default_params R_d R_v]. intros E.
  apply (f_equal (fun f => f 0%nat)) in E. cbv beta in E. apply Rmult_eq_reg_l in E; [|exact Hd].
  cbn [set_test set_av set_rho m_rv] in E. replace (1 / 100 / (287 / 461)) with (461 / 28700) in E by field. lra.
Qed.

(** ** The states the iterations leave unchanged *)
(** A state with the density, humidity and potential temperature asked for is left unchanged by an outer iteration. *)
Lemma for_break_fixed {S} (eqv : S -> S -> Prop) (body : nat -> S -> bool * S) s : (forall i t, eqv t s -> eqv (snd (body i t)) s) ->
  forall n i t, eqv t s -> eqv (snd (for_break n i body t)) s.
Proof. intros H. apply (for_break_invariant (fun t => eqv t s)). exact H. Qed.
Definition same_state (t s : moist_state) : Prop := m_theta t = m_theta s /\ m_rho t = m_rho s /\ m_rv t = m_rv s /\ m_rho_av t = m_rho_av s.
Lemma same_exner P t s : same_state t s -> exner_at P t = exner_at P s /\ p_at P t = p_at P s /\ T_at P t = T_at P s.
Proof.
  intros (H1 & H2 & H3 & H4). assert (E : exner_at P t = exner_at P s) by (apply functional_extensionality; intros k; unfold exner_at; rewrite H1, H4; reflexivity).
  split; [exact E|]. split; apply functional_extensionality; intros k; [unfold p_at; rewrite E; reflexivity|unfold T_at; rewrite H1, H3, E; reflexivity].
Qed.
Theorem unsaturated_solution_is_fixed : forall P solve recover err max_inner theta_d H s, admissible P ->
  m_rho s = solve (m_theta s) (m_rv s) -> m_rho_av s = recover (m_rho s) ->
  (forall k, e_sat P (T_at P s k) < p_at P s k /\ 0 <= m_rv s k /\ RH P (m_rv s k) (T_at P s k) (p_at P s k) = H k) -> virtual_theta P theta_d s ->
  same_state (snd (unsat_step P solve recover err max_inner theta_d H s)) s.
Proof.
  intros P solve recover err max_inner theta_d H s HP Hr Ha Hk Hv. unfold unsat_step. cbv zeta. rewrite damp1.
  assert (I : forall t, same_state t s -> same_state (unsat_inner P err max_inner theta_d H t) s).
  { intros t Ht. unfold unsat_inner. apply (for_break_fixed same_state); [|exact Ht]. clear t Ht. intros _ t Ht. cbv zeta. cbn [snd]. rewrite damp1.
    destruct (same_exner P t s Ht) as (_ & Hp & HT).
    assert (R : r_v_expr P H t = m_rv s).
    { apply functional_extensionality. intros k. unfold r_v_expr. rewrite Hp, HT. destruct (Hk k) as (K1 & K2 & K3). rewrite <- K3. apply r_v_of_RH; assumption. }
    destruct Ht as (H1 & H2 & H3 & H4). unfold same_state. cbn [set_rv set_theta set_test m_theta m_rho m_rv m_rho_av]. rewrite R. split; [symmetry; exact Hv|]. repeat split; assumption. }
  assert (S0 : same_state (set_test (RH_expr P (set_av (recover (m_rho (set_rho (solve (m_theta s) (m_rv s)) s))) (set_rho (solve (m_theta s) (m_rv s)) s)))
                 (set_av (recover (m_rho (set_rho (solve (m_theta s) (m_rv s)) s))) (set_rho (solve (m_theta s) (m_rv s)) s))) s).
  { unfold same_state. cbn [set_test set_av set_rho m_theta m_rho m_rv m_rho_av]. rewrite <- Hr, <- Ha. repeat split. }
  destruct (below _ _); [exact S0|]. apply I. exact S0.
Qed.
Lemma damp_same d x : damp d x x = x.
Proof. apply functional_extensionality. intros k. unfold damp. ring. Qed.
(** The same for the saturated iteration. *)
Theorem saturated_solution_is_fixed : forall P solve recover err max_theta max_inner te mr_t s,
  m_rho s = solve (m_theta s) mr_t -> m_rho_av s = recover (m_rho s) ->
  (forall k, theta_e P (T_at P s k) (p_at P s k) (m_rv s k) (mr_t k) = te k /\ te k <> 0 /\ m_rv s k = r_sat P (T_at P s k) (p_at P s k)) ->
  same_state (snd (sat_step P solve recover err max_theta max_inner te mr_t s)) s.
Proof.
  intros P solve recover err max_theta max_inner te mr_t s Hr Ha Hk. unfold sat_step. cbv zeta. rewrite <- Hr, damp_same.
  assert (TE : forall t, same_state t s -> theta_e_expr P mr_t t = te).
  { intros t Ht. destruct (same_exner P t s Ht) as (_ & Hp & HT). apply functional_extensionality. intros k. unfold theta_e_expr. destruct Ht as (_ & _ & H3 & _). rewrite Hp, HT, H3. apply Hk. }
  assert (RS : forall t, same_state t s -> r_sat_expr P t = m_rv s).
  { intros t Ht. destruct (same_exner P t s Ht) as (_ & Hp & HT). apply functional_extensionality. intros k. unfold r_sat_expr. rewrite Hp, HT. symmetry. apply Hk. }
  assert (I : forall t, same_state t s -> same_state (sat_inner P err max_inner te mr_t t) s).
  { intros t Ht. unfold sat_inner. apply (for_break_fixed same_state); [|exact Ht]. clear t Ht. intros _ t Ht. cbv zeta. cbn [snd]. rewrite (RS t Ht).
    destruct Ht as (H1 & H2 & H3 & H4). unfold same_state. cbn [set_rv set_test m_theta m_rho m_rv m_rho_av]. rewrite H3, damp_same. repeat split; assumption. }
  assert (J : forall t, same_state t s -> same_state (sat_theta P err max_theta max_inner te mr_t t) s).
  { intros t Ht. unfold sat_theta. apply (for_break_fixed same_state); [|exact Ht]. clear t Ht. intros _ t Ht. cbv zeta. rewrite (TE t Ht).
    replace (fun k => te k / te k * m_theta t k) with (m_theta t).
    2:{ apply functional_extensionality. intros k. field. apply (Hk k). }
    rewrite damp_same. assert (Ht' : same_state (set_theta (m_theta t) t) s) by exact Ht.
    destruct (below _ _); cbn [snd]; [exact Ht'|]. apply I. exact Ht'. }
  destruct (below _ _); cbn [snd]; [unfold same_state; repeat split|]. apply J. unfold same_state. cbn [set_test set_av set_rho m_theta m_rho m_rv m_rho_av]. rewrite <- Ha. repeat split.
Qed.
(** Convergence of the saturated iteration: the equivalent potential temperature is within the tolerance, but for the recovered
    density of the outer iteration before; that the vapour is saturated is not tested. *)
Theorem saturated_converged_partial : forall P solve recover err max_outer max_theta max_inner te mr_t rho_init s,
  saturated P solve recover err max_outer max_theta max_inner false te mr_t rho_init = Ok (true, s) -> err (theta_e_expr P mr_t s) te < / 10^8.
Proof.
  intros P solve recover err max_outer max_theta max_inner te mr_t rho_init s E. unfold saturated in E.
  match type of E with context [outer_loop ?m ?st ?s0] => set (step := st) in E; set (s_init := s0) in E; destruct (outer_loop m step s_init) as [[b' s']|] eqn:EL; [|discriminate] end.
  injection E as -> <-. apply outer_loop_spec in EL. destruct EL as (n & Hn & Hk & EL).
  set (t := iterate step n s_init) in *. unfold step, sat_step in EL. cbv zeta in EL. destruct (below _ _) eqn:Hb; [|discriminate]. injection EL as <-.
  unfold below in Hb. destruct (Rlt_dec _ _) as [L|]; [|discriminate]. exact L.
Qed.
Print Assumptions saturated_converged_partial.

(** A state at 273.15 K and 1000 hPa with vapour r *)
Definition parcel (r : R) : moist_state :=
  let th := 273.15 * (1 + r * 461 / 287) in let rho := rho_of default_params th 1 in
  {| m_theta := fun _ => th; m_rho := fun _ => rho; m_rv := fun _ => r; m_rho_av := fun _ => rho; m_test := fun _ => 0 |}.
Lemma parcel_state r k : 0 <= r -> exner_at default_params (parcel r) k = 1 /\ p_at default_params (parcel r) k = 100000 /\ T_at default_params (parcel r) k = 273.15.
Proof.
  intros Hr. assert (E : exner_at default_params (parcel r) k = 1).
  { unfold exner_at, parcel. cbv zeta. cbn [m_rho_av m_theta]. apply (exner_of_rho default_params default_admissible (273.15 * (1 + r * 461 / 287)) 1); [|lra].
    apply Rmult_lt_0_compat; lra. }
  split; [exact E|]. split.
  - unfold p_at. rewrite E. unfold p_of. unfold Rpower. rewrite ln_1, Rmult_0_r, exp_0. cbn. ring.
  - unfold T_at. rewrite E. unfold T_of, parcel. cbn [m_theta m_rv default_params R_d R_v]. field. lra.
Qed.
Lemma e_sat_T0 : e_sat default_params 273.15 = 610.9.
Proof. unfold e_sat. cbn. replace (273.15 - 273.15) with 0 by ring. rewrite Rmult_0_r. unfold Rdiv. rewrite Rmult_0_l, exp_0. ring. Qed.
Example unsaturated_fixed_example : let s := parcel (1/1000) in let P := default_params in
  m_rho s = (fun _ _ => m_rho s) (m_theta s) (m_rv s) /\ m_rho_av s = (fun r : nodal => r) (m_rho s) /\
  (forall k, e_sat P (T_at P s k) < p_at P s k /\ 0 <= m_rv s k /\ RH P (m_rv s k) (T_at P s k) (p_at P s k) = (fun _ => RH P (1/1000) 273.15 100000) k) /\
  virtual_theta P (fun _ => 273.15) s.
Proof.
  intros s P. split; [reflexivity|]. split; [reflexivity|]. split.
  - intros k. destruct (parcel_state (1/1000) k ltac:(lra)) as (_ & Hp & HT). fold s in Hp, HT. fold P in Hp, HT. rewrite Hp, HT. unfold P. rewrite e_sat_T0. cbn [s parcel m_rv]. split; [lra|]. split; [lra|reflexivity].
  - unfold virtual_theta. apply functional_extensionality. intros k. unfold s, parcel. cbn [m_theta m_rv P default_params R_d R_v]. field.
Qed.
Example saturated_fixed_example : let r := r_sat default_params 273.15 100000 in let s := parcel r in let P := default_params in
  let te := theta_e P 273.15 100000 r (2 * r) in
  (forall k, theta_e P (T_at P s k) (p_at P s k) (m_rv s k) ((fun _ => 2 * r) k) = te /\ te <> 0 /\ m_rv s k = r_sat P (T_at P s k) (p_at P s k)).
Proof.
  intros r s P te k. assert (Hr : 0 <= r) by (left; apply r_sat_pos; [exact default_admissible|rewrite e_sat_T0; lra]).
  destruct (parcel_state r k Hr) as (_ & Hp & HT). fold s in Hp, HT. fold P in Hp, HT. rewrite Hp, HT. split; [reflexivity|]. split; [|reflexivity].
  unfold te, theta_e. apply Rgt_not_eq. apply Rmult_lt_0_compat; [|apply Rpower_pos]. apply Rmult_lt_0_compat; [|apply exp_pos]. apply Rmult_lt_0_compat; [lra|apply Rpower_pos].
Qed.

(** The correction of the potential temperature goes the right way: where the equivalent potential temperature is too low it is
    raised, where too high lowered. *)
Theorem saturated_correction_direction : forall P err te mr_t s k,
  0 < m_theta s k -> 0 < theta_e_expr P mr_t s k ->
  let theta' := m_theta (sat_theta P err 1 0 te mr_t s) k in
  (theta_e_expr P mr_t s k < te k -> m_theta s k < theta') /\ (te k < theta_e_expr P mr_t s k -> theta' < m_theta s k) /\
  (theta_e_expr P mr_t s k = te k -> theta' = m_theta s k).
Proof.
  intros P err te mr_t s k Ht He. cbv zeta.
  assert (E : m_theta (sat_theta P err 1 0 te mr_t s) k = m_theta s k * (1 - 8/10) + 8/10 * (te k / theta_e_expr P mr_t s k * m_theta s k)).
  { unfold sat_theta, for_break. unfold sat_inner, for_break.
    match goal with |- context [if ?b then (true, ?x) else (false, snd (false, ?x))] => destruct b end; reflexivity. }
  rewrite E. set (a := theta_e_expr P mr_t s k) in *. set (t := m_theta s k) in *.
  assert (Q : te k / a = 1 + (te k - a) / a) by (field; lra). rewrite Q.
  replace (t * (1 - 8/10) + 8/10 * ((1 + (te k - a) / a) * t)) with (t + 8/10 * ((te k - a) * (/ a * t))) by (field; lra).
  assert (0 < / a * t) by (apply Rmult_lt_0_compat; [apply Rinv_0_lt_compat; exact He|exact Ht]).
  split; [|split]; intros; nra.
Qed.
