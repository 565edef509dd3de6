(** Further properties of the transport, diffusion and equation forms. *)
From Coq Require Import Reals Lra Lia String.
From Verif Require Import Base Vec Transport TransportProps CommonForms CommonFormsProps Equations EquationsProps Thermo Compressible.
Open Scope R_scope.

(** ** Options of the transport forms *)
(** Outflow at the boundary needs facet terms: with IntegrateByParts.NEVER it is refused by every
    form; in one dimension only ONCE is available. *)
Theorem outflow_never_refused : forall G d test q rho u,
  upwind_advection_form G d Never true test q u = Err ValueError /\
  upwind_continuity_form G d Never true test q u = Err ValueError /\
  upwind_tracer_conservative_form G d Never true test q rho u = Err ValueError /\
  upwind_advection_form_1d G Never true test q u = Err ValueError /\
  upwind_continuity_form_1d G Never true test q u = Err ValueError /\
  (forall i, i <> Once -> upwind_advection_form_1d G i false test q u = Err NotImplementedError /\
                          upwind_continuity_form_1d G i false test q u = Err NotImplementedError).
Proof.
  intros G d test q rho u. repeat split; try reflexivity; destruct i; try reflexivity; contradiction.
Qed.
(** The one-dimensional forms are the general ones for d = 1. *)
Theorem one_d_forms_agree : forall G test q u,
  upwind_advection_form_1d G Once false test q u = upwind_advection_form G 1 Once false test q u /\
  upwind_continuity_form_1d G Once false test q u = upwind_continuity_form G 1 Once false test q u.
Proof.
  intros G test q u. unfold upwind_advection_form_1d, upwind_advection_form, upwind_continuity_form_1d, upwind_continuity_form, assemble_form.
  cbn [andb is_never]. split; f_equal; f_equal; f_equal; unfold dx; apply wsum_ext; intros k _; unfold div_su, dot; cbn [rsum]; ring.
Qed.
(** In one dimension DGUpwind chooses the form by the type of the equation. *)
Theorem dg_upwind_selects_1d : forall ty outflow atf b, dg_upwind true ty false outflow atf = Ok (Some b) ->
  (ty = Advective /\ b = B1d_advection outflow) \/ (ty = Conservative /\ b = B1d_continuity outflow).
Proof. intros [] outflow [] b; cbn; intros H; try discriminate H; injection H as <-; auto. Qed.

(** ** Which side of a facet is called '+' does not matter *)
Definition sflip (b : nat -> bool) (s : sfield) : sfield :=
  {| sv := sv s; sg := sg s; sp := fun f => if b f then sm s f else sp s f; sm := fun f => if b f then sp s f else sm s f; sb := sb s |}.
Definition uflip (b : nat -> bool) (u : vfield) : vfield :=
  {| uv := uv u; ud := ud u; up := fun f => if b f then um u f else up u f; um := fun f => if b f then up u f else um u f; ub := ub u |}.
Definition nflip1 (b : nat -> bool) (np nm : nat -> nat -> R) (f i : nat) : R := if b f then nm f i else np f i.
Definition dflip (b : nat -> bool) (q : dfield) : dfield :=
  {| d_grad := d_grad q; d_plus := fun f => if b f then d_minus q f else d_plus q f; d_minus := fun f => if b f then d_plus q f else d_minus q f;
     d_gplus := fun f => if b f then d_gminus q f else d_gplus q f; d_gminus := fun f => if b f then d_gplus q f else d_gminus q f |}.
Lemma assemble_flip b G i outflow once bp test q u :
  assemble_form G i outflow once bp (sflip b test) (sflip b q) (uflip b u) = assemble_form G i outflow once bp test q u.
Proof.
  assert (F : upwind_flux G (sflip b test) (sflip b q) (uflip b u) = upwind_flux G test q u).
  { unfold upwind_flux, dS_. apply wsum_ext. intros f _. cbn. destruct (b f); ring. }
  assert (I : interior_flux G (sflip b test) (sflip b q) (uflip b u) = interior_flux G test q u).
  { unfold interior_flux, dS_. apply wsum_ext. intros f _. cbn. destruct (b f); ring. }
  unfold assemble_form. rewrite F, I. reflexivity.
Qed.
Theorem forms_do_not_depend_on_facet_sides : forall b G d i outflow test q rho u,
  upwind_advection_form G d i outflow (sflip b test) (sflip b q) (uflip b u) = upwind_advection_form G d i outflow test q u /\
  upwind_continuity_form G d i outflow (sflip b test) (sflip b q) (uflip b u) = upwind_continuity_form G d i outflow test q u /\
  upwind_tracer_conservative_form G d i outflow (sflip b test) (sflip b q) (sflip b rho) (uflip b u)
    = upwind_tracer_conservative_form G d i outflow test q rho u /\
  (forall np nm t w v, upwind_circulation_form G i (nflip1 b np nm) (nflip1 b nm np) (sflip b (fst t), sflip b (snd t)) (sflip b (fst w), sflip b (snd w)) (sflip b (fst v), sflip b (snd v))
    = upwind_circulation_form G i np nm t w v) /\
  (forall np nm kappa mu t w, ip_diffusion G d (nflip1 b np nm) (nflip1 b nm np) kappa mu (dflip b t) (dflip b w) = ip_diffusion G d np nm kappa mu t w).
Proof.
  intros b G d i outflow test q rho u. split; [|split; [|split; [|split]]].
  - apply assemble_flip.
  - apply assemble_flip.
  - unfold upwind_tracer_conservative_form.
    set (once := - dx G _). set (bp := dx G _).
    rewrite <- (assemble_flip b G i outflow once bp test (product q rho) u). unfold assemble_form.
    assert (F : upwind_flux G (sflip b test) (product (sflip b q) (sflip b rho)) (uflip b u) = upwind_flux G (sflip b test) (sflip b (product q rho)) (uflip b u)).
    { unfold upwind_flux, dS_. apply wsum_ext. intros f _. cbn. destruct (b f); ring. }
    assert (I : interior_flux G (sflip b test) (product (sflip b q) (sflip b rho)) (uflip b u) = interior_flux G (sflip b test) (sflip b (product q rho)) (uflip b u)).
    { unfold interior_flux, dS_. apply wsum_ext. intros f _. cbn. destruct (b f); ring. }
    rewrite F, I. reflexivity.
  - intros np nm t w v. unfold upwind_circulation_form, normal_u, nflip1.
    destruct i; (match goal with |- - ?a - ?x + ?y = _ => f_equal; [f_equal|] | |- - ?a - ?x = _ => f_equal end); unfold dS_; try (apply wsum_ext; intros f _; cbn; destruct (b f); ring); reflexivity.
  - intros np nm kappa mu t w. unfold ip_diffusion. f_equal. unfold dS_. apply wsum_ext. intros f _.
    assert (J : forall x i, jump_n (nflip1 b np nm) (nflip1 b nm np) (dflip b x) f i = jump_n np nm x f i).
    { intros x j. unfold jump_n, nflip1. cbn. destruct (b f); ring. }
    assert (A : forall x i, avg_grad kappa (dflip b x) f i = avg_grad kappa x f i).
    { intros x j. unfold avg_grad. cbn. destruct (b f); ring. }
    assert (E : forall a a' c c' : nat -> R, (forall j, a j = a' j) -> (forall j, c j = c' j) -> dot d a c = dot d a' c').
    { intros a a' c c' H1 H2. unfold dot. apply rsum_ext. intros j _. rewrite H1, H2. reflexivity. }
    rewrite (E _ _ _ _ (J w) (A t)), (E _ _ _ _ (A w) (J t)).
    rewrite (E _ (jump_n np nm w f) (fun i => jump_n (nflip1 b np nm) (nflip1 b nm np) (dflip b t) f i * kappa) (fun i => jump_n np nm t f i * kappa) (J w)); [reflexivity|].
    intros j. rewrite J. reflexivity.
Qed.

(** The circulation form takes q from the side the flow comes from: where the flow leaves the '+'
    side, the values of q on the '-' side do not enter. *)
Theorem circulation_is_upwinded : forall G np nm test q q' ubar,
  (forall f, (f < nfp G)%nat -> 0 < normal_u np (sp (fst ubar)) (sp (snd ubar)) f /\ normal_u nm (sm (fst ubar)) (sm (snd ubar)) f < 0) ->
  (forall k, sv (fst q) k = sv (fst q') k /\ sv (snd q) k = sv (snd q') k) ->
  (forall f, (f < nfp G)%nat -> sp (fst q) f = sp (fst q') f /\ sp (snd q) f = sp (snd q') f) ->
  upwind_circulation_form G Once np nm test q ubar = upwind_circulation_form G Once np nm test q' ubar.
Proof.
  intros G np nm test q q' ubar Hn Hv Hs. unfold upwind_circulation_form. f_equal.
  - f_equal. unfold dx. apply wsum_ext. intros k _. destruct (Hv k) as [-> ->]. reflexivity.
  - unfold dS_. apply wsum_ext. intros f Hf. destruct (Hn f Hf) as [P M]. destruct (Hs f Hf) as [-> ->].
    assert (U0 : upwind (normal_u nm (sm (fst ubar)) (sm (snd ubar)) f) = 0).
    { unfold upwind, sign. destruct (Rlt_dec 0 _); [lra|]. destruct (Rlt_dec _ 0); lra. }
    rewrite U0. ring.
Qed.

(** ** Kinetic energy form and the vector invariant form *)
(** div(phi w) at a point, for phi = q.u/2 *)
Definition half_product (d : nat) (q u : vpoint) : spoint :=
  {| s_val := 1/2 * rsum d (fun i => v_val q i * v_val u i);
     s_grad := fun j => 1/2 * rsum d (fun i => v_grad q i j * v_val u i + v_val q i * v_grad u i j) |}.
Definition div_scaled (d : nat) (phi : spoint) (w : vpoint) : R := s_val phi * v_div d w + rsum d (fun j => v_val w j * s_grad phi j).
(** Up to a total divergence the kinetic energy form is the gradient of q.u/2, tested with w; the vector
    invariant form is the circulation form plus it, and in three dimensions, with the divergence, it is
    the advection of u by itself. *)
Theorem kinetic_energy_is_gradient : forall d w q u,
  kinetic_energy d w q u + div_scaled d (half_product d q u) w = rsum d (fun j => v_val w j * s_grad (half_product d q u) j).
Proof. intros d w q u. unfold kinetic_energy, div_scaled, half_product. cbn [s_val s_grad]. ring. Qed.
Theorem vector_invariant_is_advection : forall w u,
  vector_invariant 3 circulation3 w u u + div_scaled 3 (half_product 3 u u) w = rsum 3 (fun i => v_val w i * rsum 3 (fun j => v_val u j * v_grad u i j)) /\
  forall d circ q, vector_invariant d circ w q u = circ (v_val w) q u + kinetic_energy d w q u.
Proof.
  intros w u. split.
  - unfold vector_invariant, circulation3, cross3, curl3, div_scaled, half_product, v_div. cbn [s_val s_grad rsum]. field.
  - intros. unfold vector_invariant, kinetic_energy. ring.
Qed.

(** ** Splitting a conservative term *)
Theorem velocity_lookup : forall E,
  let prognostic := match eq_fields E with Some names => In "u"%string names | None => False end in
  (find_velocity E = Ok PrognosticU <-> prognostic) /\
  (find_velocity E = Ok PrescribedU <-> ~ prognostic /\ In "u"%string (eq_prescribed E)) /\
  (find_velocity E = Err ValueError <-> ~ prognostic /\ ~ In "u"%string (eq_prescribed E)).
Proof.
  intros [fs ps].
  assert (B : forall l, if mem "u" l then In "u"%string l else ~ In "u"%string l).
  { intros l. unfold mem. destruct (existsb (String.eqb "u") l) eqn:X.
    - apply existsb_exists in X as (x & Hx & E%String.eqb_eq). subst. exact Hx.
    - intros H. assert (existsb (String.eqb "u") l = true) by (apply existsb_exists; exists "u"%string; split; [exact H | reflexivity]). congruence. }
  unfold find_velocity. cbn [eq_fields eq_prescribed]. pose proof (B ps) as Bp.
  destruct fs as [l|]; [pose proof (B l) as Bl; destruct (mem "u" l)|]; destruct (mem "u" ps);
    (split; [|split]); split; intros H; try discriminate H; try reflexivity; tauto.
Qed.
(** The divergence part of a split term is not transport: the number of terms labelled as transport stays the
    same, and every new one is an advective term. *)
Definition labelled (t : eterm) : bool := match e_type t with None => false | Some _ => true end.
Theorem split_continuity_labels : forall E r r', split_continuity_form E r = Ok (Some r') ->
  List.length (filter labelled r') = List.length (filter labelled r).
Proof.
  intros E r r' H. unfold split_continuity_form in H.
  set (pred := is_type Conservative) in *. set (np := fun t => negb (pred t)).
  assert (K : forall ts residual r', split_loop pred (split_continuity_term E) ts residual = Ok (Some r') ->
     r' = residual /\ filter pred ts = [] \/
     (filter np r' = r' /\ List.length (filter labelled r') = (List.length (filter labelled (filter np residual)) + List.length (filter pred ts))%nat)).
  { clear H r r'. induction ts as [|t ts IH]; intros residual r' H; cbn [split_loop] in H.
    - left. injection H as <-. auto.
    - cbn [filter]. destruct (pred t) eqn:Ep.
      + right. destruct (split_continuity_term E t) as [[new|]|] eqn:Es; cbn [bind] in H; try discriminate H.
        assert (Hn : filter np new = new /\ List.length (filter labelled new) = 1%nat).
        { unfold split_continuity_term in Es.
          destruct (match eq_fields E with Some names => if mem (e_field t) names then Ok tt else Err ValueError | None => Ok tt end); cbn [bind] in Es; [|discriminate Es].
          destruct (find_velocity E) as [v|]; cbn [bind] in Es; [|discriminate Es].
          destruct (e_lin t); [destruct v; try discriminate Es|]; injection Es as <-; split; reflexivity. }
        destruct Hn as [Hn1 Hn2]. cbn [List.length].
        change (filter (fun t => negb (pred t)) (residual ++ new)%list) with (filter np (residual ++ new)%list) in H.
        set (res' := filter np (residual ++ new)%list) in *.
        assert (R : List.length (filter labelled res') = (List.length (filter labelled (filter np residual)) + 1)%nat).
        { unfold res'. rewrite filter_app, filter_app, app_length, Hn1, Hn2. reflexivity. }
        assert (I : filter np res' = res') by (unfold res', np; apply filter_twice).
        destruct (IH _ _ H) as [[-> Hp] | [Hf Hl]].
        * rewrite Hp. split; [exact I|]. rewrite R. cbn. lia.
        * split; [exact Hf|]. rewrite Hl, I, R. lia.
      + exact (IH _ _ H). }
  destruct (K r r r' H) as [[-> _] | [_ Hl]]; [reflexivity|]. rewrite Hl.
  clear. induction r as [|t r IH]; [reflexivity|]. cbn [filter]. subst np. cbn beta in *.
  destruct (pred t) eqn:Ep; cbn [negb].
  - assert (L : labelled t = true). { subst pred. unfold is_type in Ep. unfold labelled. destruct (e_type t); [reflexivity | discriminate]. }
    rewrite L. cbn [List.length]. rewrite <- IH. lia.
  - cbn [filter]. destruct (labelled t); cbn [List.length]; rewrite <- IH; lia.
Qed.

(** ** Boussinesq and compressible equations *)
(** Rotation of the Boussinesq equations: 2 Omega x u, Omega along the third axis; inertial motion has
    frequency 2 Omega. *)
Theorem boussinesq_rotation : forall Om u,
  cross_omega Om u 0 = - (2 * Om * u 1%nat) /\ cross_omega Om u 1 = 2 * Om * u 0%nat /\ cross_omega Om u 2 = 0 /\
  (forall i, (i < 2)%nat -> cross_omega Om (cross_omega Om u) i = - ((2 * Om) ^ 2 * u i)).
Proof.
  intros Om u. unfold cross_omega, cross3. repeat split; try ring.
  intros [|[|i]] Hi; [ring | ring | lia].
Qed.
Theorem boussinesq_rejects_tracers : forall G d circ kvec compressible opt lmap lm cs Om,
  boussinesq G d circ kvec compressible true opt lmap lm cs Om = Err NotImplementedError.
Proof. reflexivity. Qed.
(** theta = theta_v (1 + r_t): values everywhere, and gradients by the product rule. *)
Theorem theta_v_definition : forall ts X,
  let rt := total_mr tr_mixing ts X in let tv := theta_v ts X in
  (forall k, 1 + sv rt k <> 0 -> sv tv k * (1 + sv rt k) = sv (f_b X) k /\
     forall i, sg tv k i * (1 + sv rt k) + sv tv k * sg rt k i = sg (f_b X) k i) /\
  (forall f, 1 + sp rt f <> 0 -> sp tv f * (1 + sp rt f) = sp (f_b X) f) /\
  (forall f, 1 + sm rt f <> 0 -> sm tv f * (1 + sm rt f) = sm (f_b X) f) /\
  (forall e, 1 + sb rt e <> 0 -> sb tv e * (1 + sb rt e) = sb (f_b X) e).
Proof.
  intros ts X rt tv. unfold tv, theta_v, quotient1. fold rt. cbn [sv sg sp sm sb].
  repeat split; intros; field; assumption.
Qed.
