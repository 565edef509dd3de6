(** Property C149. *)
From Coq Require Import Lra Lia String.
From Verif Require Import Base Vec ShallowWater1dSpec ShallowWater1d.
Open Scope R_scope.

Lemma integral_ext n w f g : (forall k, (k < n)%nat -> f k = g k) -> integral n w f = integral n w g.
Proof. intros H. apply rsum_ext. intros k Hk. rewrite H by exact Hk. reflexivity. Qed.
Lemma integral_add n w f g : integral n w (fun k => f k + g k) = integral n w f + integral n w g.
Proof. unfold integral. rewrite <- rsum_add. apply rsum_ext. intros k Hk. ring. Qed.
Lemma integral_scal n w c f : integral n w (fun k => c * f k) = c * integral n w f.
Proof. unfold integral. rewrite <- rsum_scal. apply rsum_ext. intros k Hk. ring. Qed.
Lemma integral_0 n w f : (forall k, (k < n)%nat -> f k = 0) -> integral n w f = 0.
Proof. intros H. unfold integral. apply rsum_0. intros k Hk. rewrite H by exact Hk. ring. Qed.
Definition coriolis_parameter (rot : rotation1) (f0 : R) : R := match rot with FPlane => f0 | _ => 0 end.

Section Facts.
Variables (n : nat) (w : nat -> R).
Lemma residual_app r s X T : residual1 (r ++ s) X T = residual1 r X T + residual1 s X T.
Proof. unfold residual1. induction r as [|t r IH]; cbn [app fold_right]; [ring|]. rewrite IH. ring. Qed.
(** the residual without diffusion *)
Lemma sw_no_diffusion sn rot f0 g lin sp r X T : shallow_water_1d n w sn false rot f0 g [] lin = Ok (sp, r) ->
  residual1 r X T = integral n w (fun k => sw_tendency (coriolis_parameter rot f0) g X T k - g * d1 (mul1 (D1 X) (u1 T) k)).
Proof.
  unfold shallow_water_1d. cbn [diffusion_terms]. assert (B : forall f, integral n w (fun k => sw_tendency f g X T k - g * d1 (mul1 (D1 X) (u1 T) k)) =
    advection_form_1d n w (u1 T) (u1 X) (u1 X) + (advection_form_1d n w (v1 T) (v1 X) (u1 X) + (continuity_form_1d n w (D1 T) (D1 X) (u1 X) + (integral n w (fun k => - g * val (D1 X k) * d1 (u1 T k)) +
    (integral n w (fun k => - f * val (v1 X k) * val (u1 T k)) + integral n w (fun k => f * val (u1 X k) * val (v1 T k))))))).
  { intros f. unfold advection_form_1d, continuity_form_1d. rewrite <- !integral_add. apply integral_ext. intros k Hk. unfold sw_tendency. cbn [mul1 d1]. ring. }
  destruct rot; intros E; [injection E as _ <-|injection E as _ <-|discriminate]; cbn [coriolis_parameter]; rewrite B; cbn [app residual1 fold_right form1 u_adv v_adv D_adv pressure_term coriolis_term].
  - rewrite (integral_0 n w (fun k => - 0 * val (v1 X k) * val (u1 T k))) by (intros; ring). rewrite (integral_0 n w (fun k => 0 * val (u1 X k) * val (v1 T k))) by (intros; ring). ring.
  - ring.
Qed.
End Facts.

(** C149.  The residual is the weak form of du/dt + u u_x - f v + g D_x = 0, dv/dt + u v_x + f u = 0, dD/dt + (u D)_x = 0, where the product of depth and test function has no net flux. *)
Theorem shallow_water_1d_equations :
  forall n w sn rot f0 g lin sp r X T, shallow_water_1d n w sn false rot f0 g [] lin = Ok (sp, r) -> no_net_flux n w (mul1 (D1 X) (u1 T)) ->
  residual1 r X T = integral n w (sw_tendency (coriolis_parameter rot f0) g X T).
Proof.
  intros n w sn rot f0 g lin sp r X T E H. rewrite (sw_no_diffusion n w sn rot f0 g lin sp r X T E). unfold no_net_flux in H.
  transitivity (integral n w (sw_tendency (coriolis_parameter rot f0) g X T) + (- g) * integral n w (fun k => d1 (mul1 (D1 X) (u1 T) k))); [|rewrite H; ring].
  rewrite <- integral_scal, <- integral_add. apply integral_ext. intros k Hk. ring.
Qed.
Print Assumptions shallow_water_1d_equations.

(** C149.  With diffusion: for each listed field, -kappa times the second derivative is added. *)
Theorem shallow_water_1d_diffusion :
  forall n w sn rot f0 g lin sp r X T diffusion, shallow_water_1d n w sn false rot f0 g diffusion lin = Ok (sp, r) -> no_net_flux n w (mul1 (D1 X) (u1 T)) ->
  residual1 r X T = integral n w (sw_tendency (coriolis_parameter rot f0) g X T) +
    fold_right (fun e acc => - snd e * integral n w (fun k => if String.eqb (fst e) "u" then val (u1 T k) * d2 (u1 X k) else if String.eqb (fst e) "v" then val (v1 T k) * d2 (v1 X k) else val (D1 T k) * d2 (D1 X k)) + acc) 0 diffusion.
Proof.
  intros n w sn rot f0 g lin sp r X T diffusion E H. unfold shallow_water_1d in E.
  assert (Q : forall ds dts, diffusion_terms n w ds = Ok dts -> residual1 dts X T = fold_right (fun e acc => - snd e * integral n w (fun k => if String.eqb (fst e) "u" then val (u1 T k) * d2 (u1 X k) else if String.eqb (fst e) "v" then val (v1 T k) * d2 (v1 X k) else val (D1 T k) * d2 (D1 X k)) + acc) 0 ds).
  { induction ds as [|[l kappa] ds IH]; intros dts Ed; cbn [diffusion_terms] in Ed; [injection Ed as <-; reflexivity|]. destruct (select l) as [sel|] eqn:Sl; [|discriminate]. destruct (diffusion_terms n w ds) as [r'|]; [|discriminate]. injection Ed as <-.
    cbn [residual1 fold_right form1 fst snd]. rewrite <- (IH r' eq_refl). unfold residual1. f_equal. unfold diffusion_form_1d. rewrite <- integral_scal. apply integral_ext. intros k Hk. unfold select in Sl.
    destruct (String.eqb l "u"); [injection Sl as <-; ring|]. destruct (String.eqb l "v"); [injection Sl as <-; ring|]. destruct (String.eqb l "D"); [injection Sl as <-; ring|discriminate]. }
  destruct (diffusion_terms n w diffusion) as [ds|] eqn:Ed; [|destruct rot; discriminate]. specialize (Q diffusion ds Ed). rewrite <- Q.
  assert (Z : exists sp0 r0, shallow_water_1d n w sn false rot f0 g [] lin = Ok (sp0, r0) /\ residual1 r X T = residual1 r0 X T + residual1 ds X T).
  { unfold shallow_water_1d. cbn [diffusion_terms]. destruct rot; [injection E as _ <-|injection E as _ <-|discriminate]; eexists; eexists; (split; [reflexivity|]); unfold residual1, coriolis_term; cbn [app fold_right form1]; ring. }
  destruct Z as (sp0 & r0 & E0 & ->). f_equal. apply (shallow_water_1d_equations n w sn rot f0 g lin sp0 r0 X T E0 H).
Qed.
Print Assumptions shallow_water_1d_diffusion.

(** C149.  Conservation: mass (test function one for D) and, for the equations themselves, energy u^2 D/2 + v^2 D/2 + g D^2/2. *)
Theorem shallow_water_1d_mass_energy :
  forall n w sn rot f0 g lin sp r X, shallow_water_1d n w sn false rot f0 g [] lin = Ok (sp, r) ->
  (no_net_flux n w (mul1 (D1 X) (u1 X)) -> residual1 r X {| u1 := const1 0; v1 := const1 0; D1 := const1 1 |} = 0) /\
  let K := scal1 (1/2) (add1 (mul1 (u1 X) (u1 X)) (mul1 (v1 X) (v1 X))) in
  (no_net_flux n w (mul1 K (mul1 (D1 X) (u1 X))) ->
   residual1 r X {| u1 := mul1 (D1 X) (u1 X); v1 := mul1 (D1 X) (v1 X); D1 := add1 K (scal1 g (D1 X)) |} = 0).
Proof.
  intros n w sn rot f0 g lin sp r X E. split.
  - intros H. rewrite (sw_no_diffusion n w sn rot f0 g lin sp r X _ E). rewrite <- H. apply integral_ext. intros k Hk. unfold sw_tendency. cbn. ring.
  - intros K H. rewrite (sw_no_diffusion n w sn rot f0 g lin sp r X _ E). unfold no_net_flux in H. rewrite <- H. apply integral_ext. intros k Hk. unfold sw_tendency, K. cbn. field.
Qed.
Print Assumptions shallow_water_1d_mass_energy.

(** C149.  Geostrophic balance f v = g D_x without flow along the line is steady, and so is uniform flow without rotation. *)
Theorem shallow_water_1d_steady_states :
  forall n w sn rot f0 g lin sp r X T, shallow_water_1d n w sn false rot f0 g [] lin = Ok (sp, r) -> no_net_flux n w (mul1 (D1 X) (u1 T)) ->
  (forall k, (k < n)%nat -> val (u1 X k) = 0 /\ d1 (u1 X k) = 0 /\ coriolis_parameter rot f0 * val (v1 X k) = g * d1 (D1 X k)) \/
  (forall k, (k < n)%nat -> d1 (u1 X k) = 0 /\ d1 (v1 X k) = 0 /\ d1 (D1 X k) = 0) /\ coriolis_parameter rot f0 = 0 ->
  residual1 r X T = 0.
Proof.
  intros n w sn rot f0 g lin sp r X T E H C. rewrite (shallow_water_1d_equations n w sn rot f0 g lin sp r X T E H). apply integral_0. intros k Hk. unfold sw_tendency. destruct C as [C|[C C0]].
  - destruct (C k Hk) as (-> & -> & C3). transitivity (val (u1 T k) * (g * d1 (D1 X k) - coriolis_parameter rot f0 * val (v1 X k))); [ring|]. rewrite C3. ring.
  - destruct (C k Hk) as (-> & -> & ->). rewrite C0. ring.
Qed.
Print Assumptions shallow_water_1d_steady_states.

(** C149.  The linearisation is the derivative of the residual at the reference state. *)
Theorem shallow_water_1d_linearisation :
  forall n w sn rot f0 g lin sp r Xr Y T, shallow_water_1d n w sn false rot f0 g [] lin = Ok (sp, r) ->
  derivable_pt_lim (fun e => residual1 r (perturb e Xr Y) T) 0 (linear_residual1 Xr r Y T).
Proof.
  intros n w sn rot f0 g lin sp r Xr Y T E.
  set (q := integral n w (fun k => val (u1 T k) * (val (u1 Y k) * d1 (u1 Y k)) + val (v1 T k) * (val (u1 Y k) * d1 (v1 Y k)) + val (D1 T k) * (d1 (u1 Y k) * val (D1 Y k) + val (u1 Y k) * d1 (D1 Y k)))).
  assert (Hq : forall e, residual1 r (perturb e Xr Y) T = residual1 r Xr T + e * linear_residual1 Xr r Y T + e * e * q).
  { intros e. assert (LQ : linear_residual1 Xr r Y T = integral n w (fun k => val (u1 T k) * (val (u1 Xr k) * d1 (u1 Y k) + val (u1 Y k) * d1 (u1 Xr k) - coriolis_parameter rot f0 * val (v1 Y k))
      + val (v1 T k) * (val (u1 Xr k) * d1 (v1 Y k) + val (u1 Y k) * d1 (v1 Xr k) + coriolis_parameter rot f0 * val (u1 Y k))
      + val (D1 T k) * (d1 (mul1 (D1 Y) (u1 Xr) k) + d1 (mul1 (D1 Xr) (u1 Y) k)) - g * val (D1 Y k) * d1 (u1 T k))).
    { clear q. revert E. unfold shallow_water_1d. cbn [diffusion_terms]. destruct rot; intros E; [injection E as _ <-|injection E as _ <-|discriminate]; destruct lin;
      cbn [app linear_residual1 fold_right hand1 deriv1 u_adv v_adv D_adv pressure_term coriolis_term coriolis_parameter]; unfold advection_form_1d, linear_continuity_form_1d;
      rewrite ?Rplus_0_r, <- !integral_add; apply integral_ext; intros k Hk; ring. }
    rewrite LQ, !(sw_no_diffusion n w sn rot f0 g lin sp r _ T E). unfold q. rewrite <- !integral_scal, <- !integral_add. apply integral_ext. intros k Hk. unfold sw_tendency. cbn. ring. }
  intros eps Heps. destruct (Req_dec q 0) as [Z|Z].
  - exists (mkposreal 1 Rlt_0_1). intros h Hh _. rewrite !Hq, Z, Rplus_0_l. match goal with |- Rabs ?x < _ => replace x with 0 by (field; exact Hh) end. rewrite Rabs_R0. exact Heps.
  - assert (Pq : 0 < Rabs q) by (apply Rabs_pos_lt; exact Z). assert (Dp : 0 < eps / Rabs q) by (apply Rdiv_lt_0_compat; assumption). exists (mkposreal _ Dp). intros h Hh Hd. cbn in Hd. rewrite !Hq, Rplus_0_l.
    match goal with |- Rabs ?x < _ => replace x with (h * q) by (field; exact Hh) end. rewrite Rabs_mult. apply (Rmult_lt_compat_r (Rabs q)) in Hd; [|exact Pq]. unfold Rdiv in Hd. rewrite Rmult_assoc, Rinv_l, Rmult_1_r in Hd by lra. exact Hd.
Qed.
Print Assumptions shallow_water_1d_linearisation.

(** C149.  LinearShallowWaterEquations_1d about rest with depth H: the documented equations; energy H u^2/2 + H v^2/2 + g D^2/2 is conserved exactly, for every mesh and boundary. *)
Definition rest1 (H : R) : state1 := {| u1 := const1 0; v1 := const1 0; D1 := const1 H |}.
Theorem linear_shallow_water_1d_documented :
  forall n w sn rot f0 g H res X T, linear_shallow_water_1d n w sn false rot f0 g (rest1 H) = Ok res ->
  (no_net_flux n w (mul1 (D1 X) (u1 T)) -> res X T = integral n w (linear_sw_tendency (coriolis_parameter rot f0) g H X T)) /\
  res X {| u1 := scal1 H (u1 X); v1 := scal1 H (v1 X); D1 := scal1 g (D1 X) |} = 0.
Proof.
  intros n w sn rot f0 g H rs X T E.
  assert (LQ : forall T, rs X T = integral n w (fun k => linear_sw_tendency (coriolis_parameter rot f0) g H X T k - g * d1 (mul1 (D1 X) (u1 T) k))).
  { clear T. intros T. revert E. unfold linear_shallow_water_1d, shallow_water_1d. cbn [diffusion_terms]. destruct rot; intros E; [injection E as <-|injection E as <-|discriminate];
    cbn [app linear_residual1 fold_right hand1 deriv1 u_adv v_adv D_adv pressure_term coriolis_term coriolis_parameter]; unfold advection_form_1d, linear_continuity_form_1d;
    rewrite ?Rplus_0_r, <- !integral_add; apply integral_ext; intros k Hk; unfold linear_sw_tendency; cbn; ring. }
  split.
  - intros Z. rewrite LQ. unfold no_net_flux in Z. transitivity (integral n w (linear_sw_tendency (coriolis_parameter rot f0) g H X T) + (- g) * integral n w (fun k => d1 (mul1 (D1 X) (u1 T) k))); [|rewrite Z; ring].
    rewrite <- integral_scal, <- integral_add. apply integral_ext. intros k Hk. ring.
  - rewrite LQ. apply integral_0. intros k Hk. unfold linear_sw_tendency. cbn. ring.
Qed.
Print Assumptions linear_shallow_water_1d_documented.

(** C149.  What the constructor accepts. *)
Theorem shallow_water_1d_accepts :
  forall n w sn tracers rot f0 g diffusion lin,
  (exists o, shallow_water_1d n w sn tracers rot f0 g diffusion lin = Ok o) <->
  tracers = false /\ rot <> OtherRotation1 /\ forall l kappa, In (l, kappa) diffusion -> In l ["u"; "v"; "D"]%string.
Proof.
  intros n w sn tracers rot f0 g diffusion lin.
  assert (Q : (exists ds, diffusion_terms n w diffusion = Ok ds) <-> forall l kappa, In (l, kappa) diffusion -> In l ["u"; "v"; "D"]%string).
  { induction diffusion as [|[l kappa] tl IH]; [split; [intros _ ? ? []|intros _; exists []; reflexivity]|]. cbn [diffusion_terms].
    assert (Sl : (exists sel, select l = Some sel) <-> In l ["u"; "v"; "D"]%string).
    { unfold select. destruct (String.eqb_spec l "u") as [->|N1]; [split; [left; reflexivity|eexists; reflexivity]|]. destruct (String.eqb_spec l "v") as [->|N2]; [split; [right; left; reflexivity|eexists; reflexivity]|].
      destruct (String.eqb_spec l "D") as [->|N3]; [split; [right; right; left; reflexivity|eexists; reflexivity]|]. split; [intros (s & Es); discriminate|intros [<-|[<-|[<-|[]]]]; contradiction]. }
    destruct (select l) as [sel|] eqn:El.
    - split.
      + intros (ds & Ed) l' k' [Hi|Hi]; [injection Hi as <- _; apply Sl; eexists; reflexivity|]. destruct (diffusion_terms n w tl) as [r|] eqn:Et; [|discriminate]. apply (proj1 IH (ex_intro _ r eq_refl) l' k' Hi).
      + intros Hl. destruct (proj2 IH ltac:(intros l' k' Hi; apply (Hl l' k'); right; exact Hi)) as (ds & ->). eexists. reflexivity.
    - split; [intros (ds & Ed); discriminate|]. intros Hl. destruct (proj2 Sl (Hl l kappa (or_introl eq_refl))) as (s & Es). discriminate. }
  unfold shallow_water_1d. rewrite <- Q. split.
  - intros (o & E). destruct tracers; [discriminate|]. split; [reflexivity|]. destruct rot; [| |discriminate]; (split; [discriminate|]); destruct (diffusion_terms n w diffusion) as [ds|]; try discriminate; exists ds; reflexivity.
  - intros (-> & Hr & ds & ->). destruct rot; [eexists; reflexivity|eexists; reflexivity|contradiction].
Qed.
Print Assumptions shallow_water_1d_accepts.

(** C149 fails: the documented argument space_names has no effect, and the documented equation dv/dt + f u = 0 is not the one that is solved (v is advected). *)
Theorem space_names_1d_refuted :
  forall n w sn sn' tracers rot f0 g diffusion lin, shallow_water_1d n w sn tracers rot f0 g diffusion lin = shallow_water_1d n w sn' tracers rot f0 g diffusion lin.
Proof. reflexivity. Qed.
Theorem documented_v_equation_refuted :
  exists n w X T sp r, shallow_water_1d n w None false FPlane 1 10 [] true = Ok (sp, r) /\ u1 T = const1 0 /\ D1 T = const1 0 /\ residual1 r X T <> integral n w (fun k => val (v1 T k) * (1 * val (u1 X k))).
Proof.
  exists 1%nat, (fun _ => 1), {| u1 := const1 1; v1 := fun _ => {| val := 0; d1 := 1; d2 := 0 |}; D1 := const1 1 |}, {| u1 := const1 0; v1 := const1 1; D1 := const1 0 |}. eexists. eexists. split; [reflexivity|]. split; [reflexivity|]. split; [reflexivity|].
  cbn. unfold advection_form_1d, continuity_form_1d, integral. cbn. lra.
Qed.
Print Assumptions documented_v_equation_refuted.

(** a case that meets the hypotheses: two points, a periodic depth in geostrophic balance with v *)
Example geostrophic_1d : exists X T sp r, shallow_water_1d 2 (fun _ => 1) None false FPlane 2 10 [] true = Ok (sp, r) /\ no_net_flux 2 (fun _ => 1) (mul1 (D1 X) (u1 T)) /\ d1 (D1 X 0%nat) = 1 /\ val (u1 T 0%nat) = 1 /\
  (forall k, (k < 2)%nat -> val (u1 X k) = 0 /\ d1 (u1 X k) = 0 /\ coriolis_parameter FPlane 2 * val (v1 X k) = 10 * d1 (D1 X k)).
Proof.
  exists {| u1 := const1 0; v1 := fun k => {| val := if Nat.eqb k 0 then 5 else -5; d1 := 0; d2 := 0 |}; D1 := fun k => {| val := 3; d1 := if Nat.eqb k 0 then 1 else -1; d2 := 0 |} |}, {| u1 := const1 1; v1 := const1 1; D1 := const1 1 |}. eexists. eexists.
  split; [reflexivity|]. split; [unfold no_net_flux, integral; cbn; lra|]. split; [reflexivity|]. split; [reflexivity|]. intros [|[|k]] Hk; cbn; [lra|lra|lia].
Qed.
