(** C126: the linear solver of the semi-implicit quasi-Newton scheme.  C127: the Schur complement presets. *)
From Coq Require Import String List Permutation.
From Verif Require Import Base Vec Transport TransportProps CommonForms CommonFormsProps Equations EquationsProps DiagFormsProps LinearSolver.
Import ListNotations.
Open Scope R_scope.

(** ** Specification *)
(** the relaxation parameter of a variable: the value of the user, or alpha *)
Definition relaxation (tau : list (string * R)) (alpha : R) (n : string) : R := match find (fun p => String.eqb (fst p) n) tau with Some p => snd p | None => alpha end.
(** the weight of a term in the linear system *)
Definition weight (sprog : list string) (tau : list (string * R)) (alpha dt : R) (t : eqterm) : R :=
  if has_lab "time_derivative" t then 1
  else if existsb (String.eqb (t_field t)) sprog then
    (if has_lab "incompressible" t || has_lab "sponge" t then dt else dt * relaxation tau alpha (t_field t))
  else 0.
(** value of the linearisation of a term *)
Definition linear_part (X Xr tr T : fields) (t : eqterm) : R := match t_lin t with Some l => l X Xr tr T | None => 0 end.
Definition linear_sum (c : eqterm -> R) (r : list eqterm) X Xr tr T : R := fold_right (fun t acc => c t * linear_part X Xr tr T t + acc) 0 r.

(** ** Proofs *)
Lemma suml_ext {A} (f g : A -> R) l : (forall a, In a l -> f a = g a) -> suml f l = suml g l.
Proof. induction l as [|a l IH]; intros H; [reflexivity|]. unfold suml. cbn [fold_right]. fold (suml f l) (suml g l). rewrite (H a) by (left; auto). f_equal. apply IH. intros. apply H. right. auto. Qed.
Lemma suml_plus {A} (f g : A -> R) l : suml f l + suml g l = suml (fun a => f a + g a) l.
Proof. induction l as [|a l IH]; cbn; [ring|]. unfold suml in IH. lra. Qed.
Lemma suml_0 {A} (f : A -> R) l : (forall a, In a l -> f a = 0) -> suml f l = 0.
Proof. induction l as [|a l IH]; intros H; [reflexivity|]. unfold suml. cbn [fold_right]. fold (suml f l). rewrite (H a) by (left; auto). rewrite IH; [ring|]. intros. apply H. right; auto. Qed.
Lemma suml_swap {A B} (f : A -> B -> R) la lb : suml (fun a => suml (f a) lb) la = suml (fun b => suml (fun a => f a b) la) lb.
Proof.
  induction la as [|a la IH]; cbn; [symmetry; apply suml_0; reflexivity|]. unfold suml in IH |- *. rewrite IH.
  change (suml (f a) lb + suml (fun b => suml (fun a => f a b) la) lb = suml (fun b => f a b + suml (fun a => f a b) la) lb). apply suml_plus.
Qed.
Lemma suml_delta (n : string) (v : string -> R) l : NoDup l -> suml (fun m => if String.eqb n m then v m else 0) l = if existsb (String.eqb n) l then v n else 0.
Proof.
  induction l as [|a l IH]; intros N; [reflexivity|]. inversion N; subst. cbn [suml fold_right existsb]. fold (suml (fun m => if String.eqb n m then v m else 0) l).
  rewrite IH by auto. destruct (String.eqb_spec n a) as [->|E]; cbn [orb]; [|ring].
  destruct (existsb (String.eqb a) l) eqn:Ex; [|ring]. exfalso. apply existsb_exists in Ex. destruct Ex as (x & Hx & Ex). apply String.eqb_eq in Ex. subst. auto.
Qed.
Lemma lookup_app {A} n (l1 l2 : list (string * A)) : lookup n (l1 ++ l2)%list = match lookup n l1 with Some v => Some v | None => lookup n l2 end.
Proof. unfold lookup. induction l1 as [|[k v] l1 IH]; cbn; [destruct (find _ l2); auto|]. destruct (String.eqb k n); auto. Qed.
Lemma fill_lookup alpha sp0 n : forall tau, lookup n (fill_tau alpha sp0 tau) = match lookup n tau with Some v => Some v | None => if mem n sp0 then Some alpha else None end.
Proof.
  unfold fill_tau. induction sp0 as [|a sp0 IH]; intros tau; cbn [fold_left mem existsb]; [destruct (lookup n tau); auto|].
  rewrite IH. destruct (lookup a tau) eqn:Ea.
  - destruct (lookup n tau) eqn:En; auto. destruct (String.eqb_spec n a); [subst; congruence|]. reflexivity.
  - rewrite lookup_app. destruct (lookup n tau) eqn:En; auto. unfold lookup at 1. cbn.
    rewrite (String.eqb_sym a n). destruct (String.eqb n a) eqn:E; cbn; auto.
Qed.
Lemma tau_relaxation alpha sprog tau n : mem n sprog = true -> tau_of (fill_tau alpha sprog tau) n = relaxation tau alpha n.
Proof.
  intros M. unfold tau_of. rewrite fill_lookup, M. unfold lookup, relaxation. destruct (find _ tau); auto.
Qed.
Lemma tau_get_relaxation tau alpha n : tau_get tau alpha n = relaxation tau alpha n.
Proof. unfold tau_get, lookup, relaxation. destruct (find _ tau); auto. Qed.

(** ** C126 *)
(** The left-hand side is the sum of the linearised terms, each with its weight; the right-hand side is that of the time derivatives *)
Theorem linear_system_weights : forall r sprog tau alpha dt X Xr tr T, NoDup sprog ->
  qn_lhs r sprog tau alpha dt X Xr tr T = linear_sum (weight sprog tau alpha dt) r X Xr tr T /\
  qn_rhs r X Xr tr T = linear_sum (fun t => if has_lab "time_derivative" t then 1 else 0) r X Xr tr T.
Proof.
  intros r sprog tau alpha dt X Xr tr T N. split.
  - unfold qn_lhs. cbv zeta.
    rewrite (suml_ext _ (fun n => suml (fun t => if String.eqb (t_field t) n then
       (if has_lin t && negb (is_mass t) then (if is_implicit t then dt else tau_of (fill_tau alpha sprog tau) n * dt) * lin_value X Xr tr T t else 0) else 0) r)).
    2:{ intros n _. rewrite suml_plus. apply suml_ext. intros t _.
        destruct (has_lin t), (is_mass t), (String.eqb (t_field t) n), (is_implicit t); cbn; ring. }
    rewrite suml_swap.
    match goal with |- _ + suml ?f r = _ => rewrite (suml_ext f (fun t => if existsb (String.eqb (t_field t)) sprog then
       (if has_lin t && negb (is_mass t) then (if is_implicit t then dt else tau_of (fill_tau alpha sprog tau) (t_field t) * dt) * lin_value X Xr tr T t else 0) else 0)) end.
    2:{ intros t _. rewrite <- (suml_delta (t_field t) (fun n => if has_lin t && negb (is_mass t) then (if is_implicit t then dt else tau_of (fill_tau alpha sprog tau) n * dt) * lin_value X Xr tr T t else 0) sprog N). reflexivity. }
    rewrite suml_plus. unfold linear_sum, suml. induction r as [|t r IH]; cbn [fold_right]; [reflexivity|]. rewrite IH. f_equal.
    unfold weight, linear_part, lin_value, has_lin. fold (is_mass t) (is_implicit t). destruct (is_mass t); destruct (t_lin t); cbn; destruct (existsb (String.eqb (t_field t)) sprog) eqn:E; destruct (is_implicit t); try ring.
    rewrite tau_relaxation by exact E. ring.
  - unfold qn_rhs, linear_sum, suml. induction r as [|t r IH]; cbn [fold_right]; [reflexivity|]. rewrite IH. f_equal.
    unfold linear_part, lin_value, is_mass. destruct (has_lab _ t); ring.
Qed.
(** A name given twice in solver_prognostics counts twice *)
Definition unit_term : eqterm := {| t_labels := ["pressure_gradient"%string]; t_field := "u"; t_form := fun _ _ => 1; t_deriv := None; t_lin := Some (fun _ _ _ _ => 1) |}.
Theorem repeated_prognostic_refuted : forall X, exists r sprog tau alpha dt,
  choose_prognostics ["u"; "D"]%string None (Some sprog) = Ok sprog /\
  qn_lhs r sprog tau alpha dt X X X X <> linear_sum (weight sprog tau alpha dt) r X X X X.
Proof.
  intros X. exists [unit_term], ["u"; "D"; "u"]%string, [], (1/2), 1. split; [reflexivity|]. cbv. lra.
Qed.
(** Solver prognostics: all names given must be those of fields; by default all that are not active tracers *)
Theorem solver_prognostics_chosen : forall names tracers user sprog, choose_prognostics names tracers user = Ok sprog ->
  (forall n, In n sprog -> In n names) /\
  match user with Some l => sprog = l | None => forall n, In n sprog <-> In n names /\ ~ In n (match tracers with Some t => t | None => [] end) end.
Proof.
  assert (M : forall n l, mem n l = true <-> In n l).
  { intros n l. unfold mem. rewrite existsb_exists. split; [intros (x & Hx & E); apply String.eqb_eq in E; subst; auto|]. intros H. exists n. split; auto. apply String.eqb_refl. }
  intros names tracers [l|] sprog; cbn.
  - destruct (forallb _ l) eqn:E; [|discriminate]. intros H; injection H as <-. split; auto. intros n Hn. rewrite forallb_forall in E. apply M. auto.
  - destruct tracers as [t|]; intros H; injection H as <-.
    + split; intros n; rewrite filter_In, negb_true_iff; [tauto|]. rewrite <- (M n t). destruct (mem n t); intuition congruence.
    + split; [tauto|]. intros n. cbn. tauto.
Qed.

(** ** C127 *)
Lemma linear_sum_app c r1 r2 X Xr tr T : linear_sum c (r1 ++ r2)%list X Xr tr T = linear_sum c r1 X Xr tr T + linear_sum c r2 X Xr tr T.
Proof. unfold linear_sum. induction r1 as [|t r1 IH]; cbn [app fold_right]; [ring|]. rewrite IH. ring. Qed.
Lemma linear_sum_cons c t r X Xr tr T : linear_sum c (t :: r) X Xr tr T = c t * linear_part X Xr tr T t + linear_sum c r X Xr tr T.
Proof. reflexivity. Qed.
Lemma linear_sum_nil c X Xr tr T : linear_sum c [] X Xr tr T = 0.
Proof. reflexivity. Qed.
Lemma u_transport_lin G d circ opt ru c X Xr tr T : circ_vanishes circ -> u_transport G d circ opt true = Ok ru -> at_rest (f_u Xr) ->
  linear_sum c (generate_linear_terms (fun _ => true) ru) X Xr tr T = 0.
Proof.
  intros C. unfold u_transport.
  assert (Z : forall a b c, zero_at a \/ zero_at b -> vector_advection d c a b = 0).
  { intros a b c0 H. unfold vector_advection. apply rsum_0. intros j _. rewrite rsum_0; [ring|]. intros i _.
    destruct H as [H|H]; [rewrite (proj2 (H i j))|rewrite (proj1 (H i j))]; ring. }
  assert (K : forall a b c, zero_at a \/ zero_at b -> kinetic_energy d c a b = 0).
  { intros a b c0 H. unfold kinetic_energy. rewrite (rsum_0 d); [ring|]. intros i _.
    destruct H as [H|H]; rewrite (proj1 (H i 0%nat)); ring. }
  assert (L : forall k a b w, zero_at b -> linear_vector_invariant d (circ k) w a b = 0).
  { intros k a b w H. unfold linear_vector_invariant, linear_circulation. rewrite !C by auto. rewrite (rsum_0 d); [ring|]. intros i _.
    rewrite (proj1 (H i 0%nat)); ring. }
  destruct (String.eqb opt "vector_invariant_form"); [|destruct (String.eqb opt "circulation_form"); [|destruct (String.eqb opt "vector_advection_form"); [|discriminate]]];
    intros H; injection H as <-; intros HX; cbn; rewrite ?dx_0; try ring; intros k; try specialize (HX k); auto.
  unfold linear_circulation. rewrite !C by auto. ring.
Qed.
(** The right-hand side of the solve has the values of the solver prognostics and zero for every other field *)
Definition same_values (a b : sfield) : Prop := forall k, sv a k = sv b k /\ sp a k = sp b k /\ sm a k = sm b k /\ sb a k = sb b k /\ forall i, sg a k i = sg b k i.
Definition same_velocity (a b : velocity_field) : Prop :=
  forall k, u_np a k = u_np b k /\ u_nm a k = u_nm b k /\ u_nb a k = u_nb b k /\ forall i j, v_val (u_at a k) i = v_val (u_at b k) i /\ v_grad (u_at a k) i j = v_grad (u_at b k) i j.
Theorem solver_right_hand_side : forall nu nD nb nq sprog x,
  let y := zero_non_prognostics [nu; nD; nb; nq] sprog x in
  (In nu sprog -> same_velocity (f_u y) (f_u x)) /\ (~ In nu sprog -> same_velocity (f_u y) {| u_at := fun _ => {| v_val := fun _ => 0; v_grad := fun _ _ => 0 |}; u_np := fun _ => 0; u_nm := fun _ => 0; u_nb := fun _ => 0 |}) /\
  (forall n sel, In (n, sel) [(nD, f_D); (nb, f_b); (nq, f_q)] ->
    (In n sprog -> same_values (sel y) (sel x)) /\ (~ In n sprog -> same_values (sel y) (constant 0))).
Proof.
  intros nu nD nb nq sprog x y.
  assert (M : forall n, mem n sprog = true <-> In n sprog).
  { intros n. unfold mem. rewrite existsb_exists. split; [intros (m & H & E); apply String.eqb_eq in E; subst; exact H|intros H; exists n; split; [exact H|apply String.eqb_refl]]. }
  assert (S : forall a : sfield, same_values a a) by (intros a k; auto 6). assert (Z : same_values zero_s (constant 0)) by (intros k; repeat split).
  assert (N : forall n, ~ In n sprog -> mem n sprog = false) by (intros n H; destruct (mem n sprog) eqn:E; [apply M in E; contradiction|reflexivity]).
  unfold y, zero_non_prognostics. cbn [nth f_u f_D f_b f_q]. split; [|split].
  - intros H. apply M in H. rewrite H. intros k. auto 6.
  - intros H. rewrite (N _ H). intros k. repeat split.
  - intros n sel [E|[E|[E|[]]]]; injection E as <- <-; cbn [f_D f_b f_q]; (split; intros H; [apply M in H; rewrite H; apply S|rewrite (N _ H); apply Z]).
Qed.
Section Presets.
Variables (G : geometry) (d : nat) (circ : nat -> (nat -> R) -> vpoint -> vpoint -> R) (perp : nat -> (nat -> R) -> nat -> R) (kvec : nat -> nat -> R).
Hypothesis CV : circ_vanishes circ.
Notation DX := (dx G).
Notation bous := (boussinesq G d circ kvec).
Let prog := ["u"; "p"; "b"]%string.
Lemma dx_adv_rest (q : nat -> R) (s : sfield) (ub : velocity_field) : at_rest ub -> DX (fun k => advection d (q k) (at_ s k) (u_at ub k)) = 0.
Proof. intros H. apply dx_0. intros k. unfold advection. rewrite rsum_0; [ring|]. intros i _. rewrite (proj1 (H k i 0%nat)). ring. Qed.
Lemma linear_adv_rest (q : nat -> R) (s sr : sfield) (u ub : velocity_field) : at_rest ub ->
  DX (fun k => linear_advection d (q k) (at_ s k) (u_at u k) (at_ sr k) (u_at ub k)) = DX (fun k => q k * vdot d (v_val (u_at u k)) (sg sr k)).
Proof.
  intros H. unfold linear_advection. rewrite dx_plus. rewrite dx_adv_rest by exact H. rewrite Rplus_0_l. reflexivity.
Qed.
(** the operator of the Boussinesq equations, written out *)
Definition advect_ref (u : velocity_field) (test ref : sfield) : R := DX (fun k => sv test k * vdot d (v_val (u_at u k)) (sg ref k)).
Definition flux_div (u : velocity_field) (test : sfield) : R := DX (fun k => sv test k * v_div d (u_at u k)).
Definition along_k (w : velocity_field) (b : sfield) : R := DX (fun k => sv b k * vdot d (v_val (u_at w k)) (kvec k)).
Lemma boussinesq_lhs compressible opt cs r tau alpha dt X Xr tr T : bous compressible false opt (fun _ => true) true cs None = Ok r -> at_rest (f_u Xr) ->
  let t := relaxation tau alpha in
  qn_lhs r prog tau alpha dt X Xr tr T =
    mass_u G d tr T + mass_s G f_D tr T + mass_s G f_b tr T
    + (if compressible then dt * t "p"%string * (advect_ref (f_u tr) (f_D T) (f_D Xr) + cs ^ 2 * flux_div (f_u tr) (f_D T))
       else dt * (mass_s G f_D tr T - flux_div (f_u tr) (f_D T)))
    + dt * t "b"%string * advect_ref (f_u tr) (f_b T) (f_b Xr)
    - dt * t "u"%string * (flux_div (f_u T) (f_D tr) + along_k (f_u T) (f_b tr)).
Proof.
  intros Hr HX t. assert (ND : NoDup prog) by (repeat constructor; cbn; intuition discriminate).
  destruct (linear_system_weights r prog tau alpha dt X Xr tr T ND) as [-> _].
  unfold boussinesq, boussinesq_setup in Hr. destruct (u_transport _ _ _ _ _) as [ru|] eqn:E; [|discriminate]. injection Hr as <-.
  repeat first [rewrite linear_sum_cons | rewrite generate_app | rewrite linear_sum_app | rewrite linear_sum_nil]. rewrite (u_transport_lin _ _ _ _ _ _ _ _ _ _ CV E HX).
  assert (P : DX (fun k => - v_div d (u_at (f_u T) k) * sv (f_D tr) k) = - flux_div (f_u T) (f_D tr)).
  { unfold flux_div. rewrite (dx_ext G _ (fun k => -1 * (sv (f_D tr) k * v_div d (u_at (f_u T) k)))) by (intros; ring). rewrite dx_scale. ring. }
  assert (K : DX (fun k => - sv (f_b tr) k * vdot d (v_val (u_at (f_u T) k)) (kvec k)) = - along_k (f_u T) (f_b tr)).
  { unfold along_k. rewrite (dx_ext G _ (fun k => -1 * (sv (f_b tr) k * vdot d (v_val (u_at (f_u T) k)) (kvec k)))) by (intros; ring). rewrite dx_scale. ring. }
  assert (A1 : DX (fun k => linear_advection d (sv (f_D T) k) (at_ (f_D tr) k) (u_at (f_u tr) k) (at_ (f_D Xr) k) (u_at (f_u Xr) k)) = advect_ref (f_u tr) (f_D T) (f_D Xr)) by (apply linear_adv_rest; auto).
  assert (A2 : DX (fun k => linear_advection d (sv (f_b T) k) (at_ (f_b tr) k) (u_at (f_u tr) k) (at_ (f_b Xr) k) (u_at (f_u Xr) k)) = advect_ref (f_u tr) (f_b T) (f_b Xr)) by (apply linear_adv_rest; auto).
  destruct compressible; cbn [generate_linear_terms List.map opt_list];
    repeat first [rewrite linear_sum_cons | rewrite linear_sum_nil];
    unfold prog, generate_linear_term, advection_term, mass_term_u, mass_term_s, term, lin_of, weight, linear_part, has_lab;
    cbn [t_lin t_deriv t_labels t_form t_field mem existsb]; cbn [String.eqb Ascii.eqb Bool.eqb orb prog];
    rewrite ?A1, ?A2, ?P, ?K; fold t.
  - unfold flux_div. ring.
  - assert (Q : DX (fun k => sv (f_D T) k * (sv (f_D tr) k - v_div d (u_at (f_u tr) k))) = mass_s G f_D tr T - flux_div (f_u tr) (f_D T)).
    { unfold mass_s, flux_div. rewrite (dx_ext G _ (fun k => sv (f_D tr) k * sv (f_D T) k + -1 * (sv (f_D T) k * v_div d (u_at (f_u tr) k)))) by (intros; ring). rewrite dx_plus, dx_scale. ring. }
    rewrite Q. ring.
Qed.
Lemma boussinesq_rhs compressible opt cs r X Xr x T : bous compressible false opt (fun _ => true) true cs None = Ok r -> at_rest (f_u Xr) ->
  qn_rhs r X Xr x T = mass_u G d x T + mass_s G f_D x T + mass_s G f_b x T.
Proof.
  intros Hr HX. destruct (linear_system_weights r [] [] 0 0 X Xr x T ltac:(constructor)) as [_ ->].
  unfold boussinesq, boussinesq_setup in Hr. destruct (u_transport _ _ _ _ _) as [ru|] eqn:E; [|discriminate]. injection Hr as <-.
  repeat first [rewrite linear_sum_cons | rewrite generate_app | rewrite linear_sum_app | rewrite linear_sum_nil]. rewrite (u_transport_lin _ _ _ _ _ _ _ _ _ _ CV E HX).
  destruct compressible; cbn [generate_linear_terms List.map opt_list];
    repeat first [rewrite linear_sum_cons | rewrite linear_sum_nil];
    unfold generate_linear_term, advection_term, mass_term_u, mass_term_s, term, lin_of, linear_part, has_lab;
    cbn [t_lin t_deriv t_labels t_form t_field mem existsb]; cbn [String.eqb Ascii.eqb Bool.eqb orb]; ring.
Qed.

(** the mixed space and what is needed of it *)
Definition mixed (Vu : velocity_field -> Prop) (Vp Vb : sfield -> Prop) (T : fields) : Prop := Vu (f_u T) /\ Vp (f_D T) /\ Vb (f_b T).
(** vertical components of velocities are in the space of b *)
Definition vertical_components (Vu : velocity_field -> Prop) (Vb : sfield -> Prop) : Prop :=
  forall w, Vu w -> exists c, Vb c /\ forall k, sv c k = vdot d (v_val (u_at w k)) (kvec k).
(** the reference profile varies only along k *)
Definition vertical_profile (ref : sfield) : Prop := forall k i, sg ref k i = vdot d (kvec k) (sg ref k) * kvec k i.
Lemma vdot_zero_l (v : nat -> R) : vdot d (fun _ => 0) v = 0.
Proof. unfold vdot. apply rsum_0. intros. ring. Qed.
Lemma vdot_zero_r (v : nat -> R) : vdot d v (fun _ => 0) = 0.
Proof. unfold vdot. apply rsum_0. intros. ring. Qed.
Lemma vdot_comm (a b : nat -> R) : vdot d a b = vdot d b a.
Proof. unfold vdot. apply rsum_ext. intros. ring. Qed.
Lemma div_zero_u k : v_div d (u_at zero_u k) = 0.
Proof. unfold v_div. apply rsum_0. reflexivity. Qed.
Ltac zeros := repeat first
  [ rewrite (dx_0 G (fun k => vdot d (v_val (u_at zero_u k)) _)) by (intros; apply vdot_zero_l)
  | rewrite (dx_0 G (fun k => vdot d _ (v_val (u_at zero_u k)))) by (intros; apply vdot_zero_r)
  | rewrite (dx_0 G (fun k => sv zero_s k * _)) by (intros; cbn; ring)
  | rewrite (dx_0 G (fun k => _ * sv zero_s k)) by (intros; cbn; ring)
  | rewrite (dx_0 G (fun k => _ * vdot d (v_val (u_at zero_u k)) _)) by (intros; rewrite vdot_zero_l; ring)
  | rewrite (dx_0 G (fun k => _ * v_div d (u_at zero_u k))) by (intros; rewrite div_zero_u; ring) ].
Lemma prog_kept xrhs : let x := zero_non_prognostics ["u"; "p"; "b"]%string prog xrhs in f_u x = f_u xrhs /\ f_D x = f_D xrhs /\ f_b x = f_b xrhs.
Proof. cbn. auto. Qed.
(** a sponge layer added to the equations *)
Definition sponge_value (mu : option (nat -> R)) (u w : velocity_field) : R :=
  match mu with Some m => DX (fun k => m k * vdot d (v_val (u_at w k)) (kvec k) * vdot d (v_val (u_at u k)) (kvec k)) | None => 0 end.
Definition with_sponge (mu : option (nat -> R)) (r : list eqterm) : list eqterm :=
  (r ++ match mu with Some _ => [term ["sponge"%string] "u" (fun X T => sponge_value mu (f_u X) (f_u T)) None (Some (fun _ _ tr T => sponge_value mu (f_u tr) (f_u T)))] | None => [] end)%list.
Lemma with_sponge_lhs mu r tau alpha dt X Xr tr T : qn_lhs (with_sponge mu r) prog tau alpha dt X Xr tr T = qn_lhs r prog tau alpha dt X Xr tr T + dt * sponge_value mu (f_u tr) (f_u T).
Proof.
  assert (ND : NoDup prog) by (repeat constructor; cbn; intuition discriminate).
  rewrite (proj1 (linear_system_weights _ prog tau alpha dt X Xr tr T ND)), (proj1 (linear_system_weights r prog tau alpha dt X Xr tr T ND)).
  unfold with_sponge. rewrite linear_sum_app. destruct mu as [m|]; rewrite ?linear_sum_cons, linear_sum_nil; [|cbn; ring].
  unfold weight, linear_part, term, has_lab. cbn [t_labels t_field t_lin mem existsb prog String.eqb Ascii.eqb Bool.eqb orb]. ring.
Qed.
Lemma with_sponge_rhs mu r X Xr x T : qn_rhs (with_sponge mu r) X Xr x T = qn_rhs r X Xr x T.
Proof.
  rewrite (proj2 (linear_system_weights _ [] [] 0 0 X Xr x T ltac:(constructor))), (proj2 (linear_system_weights r [] [] 0 0 X Xr x T ltac:(constructor))).
  unfold with_sponge. rewrite linear_sum_app. destruct mu as [m|]; rewrite ?linear_sum_cons, linear_sum_nil; [|ring]. unfold term, has_lab. cbn. ring.
Qed.
(** Compressible Boussinesq, no rotation, with or without a sponge layer, reference state at rest with uniform pressure and with buoyancy that varies
    only in the vertical: the preset with the relaxation parameters of the linear system gives the solution of the linear system *)
Theorem boussinesq_preset_exact : forall opt cs r0 mu tau alpha dt X Xr (Vu : velocity_field -> Prop) (Vp Vb : sfield -> Prop) xrhs u p b,
  bous true false opt (fun _ => true) true cs None = Ok r0 -> let r := with_sponge mu r0 in
  at_rest (f_u Xr) -> (forall k i, sg (f_D Xr) k i = 0) -> vertical_profile (f_b Xr) -> vertical_components Vu Vb ->
  schur_split (fun tr T => qn_lhs r prog tau alpha dt X Xr tr T) (fun T => qn_rhs r X Xr (zero_non_prognostics prog prog xrhs) T)
    (boussinesq_schur G d kvec true tau alpha dt cs None mu (f_b Xr)) Vu Vp Vb u p b ->
  qn_solution r prog prog tau alpha dt X Xr (mixed Vu Vp Vb) xrhs (together u p b).
Proof.
  intros opt cs r0 mu tau alpha dt X Xr Vu Vp Vb xrhs u p b Hr r HX Hp Hb HV (Uu & Up & Ub & y & Uy & Ey & Es & Eb).
  split; [split; [exact Uu|split; [exact Up|exact Ub]]|]. intros T (Tu & Tp & Tb).
  assert (L : forall tr T, qn_lhs r prog tau alpha dt X Xr tr T = mass_u G d tr T + mass_s G f_D tr T + mass_s G f_b tr T
    + dt * relaxation tau alpha "p" * (advect_ref (f_u tr) (f_D T) (f_D Xr) + cs ^ 2 * flux_div (f_u tr) (f_D T)) + dt * relaxation tau alpha "b" * advect_ref (f_u tr) (f_b T) (f_b Xr)
    - dt * relaxation tau alpha "u" * (flux_div (f_u T) (f_D tr) + along_k (f_u T) (f_b tr)) + dt * sponge_value mu (f_u tr) (f_u T)).
  { intros tr T0. unfold r. rewrite with_sponge_lhs, (boussinesq_lhs true opt cs r0) by auto. reflexivity. }
  assert (Rh : forall T, qn_rhs r X Xr (zero_non_prognostics prog prog xrhs) T = mass_u G d xrhs T + mass_s G f_D xrhs T + mass_s G f_b xrhs T)
    by (intros; unfold r; rewrite with_sponge_rhs, (boussinesq_rhs true opt cs r0) by auto; reflexivity).
  set (tu := relaxation tau alpha "u") in *. set (tp := relaxation tau alpha "p") in *. set (tb := relaxation tau alpha "b") in *.
  assert (AP : forall u0 q, advect_ref u0 q (f_D Xr) = 0).
  { intros. unfold advect_ref. apply dx_0. intros k. unfold vdot. rewrite rsum_0; [ring|]. intros i _. rewrite Hp. ring. }
  specialize (Es (f_u T) (f_D T) Tu Tp). pose proof (Eb (f_b T) Tb) as Eb'.
  destruct (HV _ Tu) as (c & Uc & Hc). pose proof (Ey c Uc) as Ey'. pose proof (Eb c Uc) as Ebc.
  rewrite Rh in *. rewrite !L in *. unfold together, only_b, only_up in *. cbn [f_u f_D f_b] in *.
  rewrite !AP in *.
  assert (Zs : sponge_value mu zero_u (f_u T) = 0 /\ (forall z, sponge_value mu z zero_u = 0)).
  { unfold sponge_value. destruct mu as [m|]; [|split; auto]. split; intros; apply dx_0; intros k; cbn; rewrite vdot_zero_l; ring. }
  destruct Zs as [Zs1 Zs2]. rewrite ?Zs1, ?Zs2 in *.
  assert (Ec : forall s, DX (fun k => sv s k * sv c k) = along_k (f_u T) s) by (intros; unfold along_k; apply dx_ext; intros; rewrite Hc; reflexivity).
  assert (Hk : advect_ref u c (f_b Xr) = DX (fun k => vdot d (v_val (u_at (f_u T) k)) (kvec k) * (vdot d (kvec k) (v_val (u_at u k)) * vdot d (kvec k) (sg (f_b Xr) k)))).
  { unfold advect_ref. apply dx_ext. intros k. rewrite Hc. f_equal. unfold vdot at 1. rewrite (rsum_ext d _ (fun i => vdot d (kvec k) (sg (f_b Xr) k) * (kvec k i * v_val (u_at u k) i))).
    - rewrite rsum_scal. unfold vdot. ring.
    - intros i _. rewrite (Hb k i). ring. }
  unfold boussinesq_schur in Es. cbv zeta in Es. injection Es as Es. rewrite !tau_get_relaxation in Es. fold tu tp tb in Es.
  assert (Hm : match mu with Some m => dt * DX (fun k => m k * vdot d (v_val (u_at (f_u T) k)) (kvec k) * vdot d (v_val (u_at u k)) (kvec k)) | None => 0 end = dt * sponge_value mu u (f_u T)) by (unfold sponge_value; destruct mu; ring).
  rewrite Hm in Es. clear Hm.
  assert (Hs : DX (fun k => vdot d (v_val (u_at (f_u T) k)) (kvec k) * (- vdot d (kvec k) (v_val (u_at u k)) * vdot d (kvec k) (sg (f_b Xr) k) * (dt * tb))) = - (dt * tb) * advect_ref u c (f_b Xr)).
  { rewrite Hk, <- dx_scale. apply dx_ext. intros; ring. }
  rewrite Hs in Es. unfold mass_u, mass_s, flux_div, along_k, advect_ref in *. cbn [f_u f_D f_b] in *.
  revert Es Ey' Ebc Eb'. zeros. 
  rewrite (dx_ext G (fun k => vdot d (v_val (u_at (f_u T) k)) (v_val (u_at u k))) (fun k => vdot d (v_val (u_at u k)) (v_val (u_at (f_u T) k)))) by (intros; apply vdot_comm).
  rewrite (dx_ext G (fun k => v_div d (u_at (f_u T) k) * sv p k) (fun k => sv p k * v_div d (u_at (f_u T) k))) by (intros; ring).
  rewrite (dx_ext G (fun k => sv (f_D T) k * sv p k) (fun k => sv p k * sv (f_D T) k)) by (intros; ring).
  rewrite (Ec b), (Ec y), (Ec (f_b xrhs)). unfold along_k. intros Es Ey' Ebc Eb'. 
  set (B := DX (fun k => sv b k * vdot d (v_val (u_at (f_u T) k)) (kvec k))) in *. set (Y := DX (fun k => sv y k * vdot d (v_val (u_at (f_u T) k)) (kvec k))) in *.
  set (A := DX (fun k => sv c k * vdot d (v_val (u_at u k)) (sg (f_b Xr) k))) in *.
  assert (HB : B = Y - dt * tb * A) by lra. rewrite HB. lra.
Qed.
(** With rotation the preset cannot be made *)
Theorem boussinesq_rotation_preset_refuted : forall compressible tau alpha dt cs Om mu bbar u p w q,
  boussinesq_schur G d kvec compressible tau alpha dt cs (Some Om) mu bbar u p w q = Err AttributeError.
Proof. reflexivity. Qed.
(** Incompressible Boussinesq: the divergence of the increment is the right-hand side of the pressure.  So with the implicit forcing at x (velocity u0,
    pressure p0) added to x_in, the divergence of the new velocity is (1 + dt) div u0 - dt p0 + (p_in - p0) *)
Theorem incompressible_increment_divergence : forall opt cs r alpha dt X Xr (Vu : velocity_field -> Prop) (Vp Vb : sfield -> Prop) xrhs u p b,
  bous false false opt (fun _ => true) true cs None = Ok r -> at_rest (f_u Xr) -> Vu zero_u -> (exists s, Vp s /\ forall k, sv s k = 0) -> (exists s, Vb s /\ forall k, sv s k = 0) ->
  schur_split (fun tr T => qn_lhs r prog [] alpha dt X Xr tr T) (fun T => qn_rhs r X Xr (zero_non_prognostics prog prog xrhs) T)
    (boussinesq_schur G d kvec false [] alpha dt cs None None (f_b Xr)) Vu Vp Vb u p b ->
  (forall q, Vp q -> flux_div u q = DX (fun k => sv (f_D xrhs) k * sv q k)) /\
  (forall x xF p_in, implicit_forcing r alpha dt (mixed Vu Vp Vb) x xF -> (forall k, sv (f_D xrhs) k = p_in k + sv (f_D xF) k - sv (f_D x) k) ->
   forall q, Vp q -> flux_div (f_u x) q + flux_div u q =
     (1 + dt) * flux_div (f_u x) q - dt * DX (fun k => sv q k * sv (f_D x) k) + DX (fun k => sv q k * (p_in k - sv (f_D x) k))).
Proof.
  intros opt cs r alpha dt X Xr Vu Vp Vb xrhs u p b Hr HX Z (zp & Zp & Hzp) (zb & Zb & Hzb) (Uu & Up & Ub & y & Uy & Ey & Es & Eb).
  assert (D1 : forall q, Vp q -> flux_div u q = DX (fun k => sv (f_D xrhs) k * sv q k)).
  { intros q Uq. specialize (Es zero_u q Z Uq). unfold boussinesq_schur in Es. cbv zeta in Es. apply (f_equal (fun v => match v with Ok a => a | Err _ => 0 end)) in Es. cbv beta iota in Es. revert Es.
    rewrite (boussinesq_rhs false opt cs r) by auto. rewrite (boussinesq_lhs false opt cs r) by auto.
    unfold mass_u, mass_s, flux_div, along_k, advect_ref, only_b, only_up. cbn [f_u f_D f_b zero_non_prognostics].
    rewrite (dx_0 G (fun k => v_div d (u_at zero_u k) * sv p k)) by (intros; rewrite div_zero_u; ring).
    rewrite (dx_0 G (fun k => vdot d (v_val (u_at zero_u k)) (kvec k) * _)) by (intros; rewrite vdot_zero_l; ring).
    zeros. cbn [f_D zero_non_prognostics nth mem existsb prog String.eqb Ascii.eqb Bool.eqb orb]. intros Es. lra. }
  split; [exact D1|]. intros x xF p_in [VF HF] Hx q Uq. rewrite (D1 q Uq).
  set (T := {| f_u := zero_u; f_D := q; f_b := zb; f_q := zero_s |}).
  assert (VT : mixed Vu Vp Vb T) by (split; [exact Z|split; [exact Uq|exact Zb]]).
  specialize (HF T VT).
  assert (M : mass r xF T = DX (fun k => sv (f_D xF) k * sv q k)).
  { assert (ML : mass r xF T = qn_rhs r X Xr xF T).
    { clear - Hr CV. unfold boussinesq, boussinesq_setup in Hr. destruct (u_transport _ _ _ _ _) as [ru|] eqn:E; [|discriminate]. injection Hr as <-.
      unfold qn_rhs, mass. cbn. f_equal. f_equal. f_equal. rewrite generate_app. unfold suml. rewrite !fold_right_app. cbn.
      assert (U : forall z, fold_right (fun t acc => (if has_lab "time_derivative" t then t_form t xF T else 0) + acc) z (generate_linear_terms (fun _ => true) ru) = z /\
                            fold_right (fun a acc => (if is_mass a then lin_value X Xr xF T a else 0) + acc) z (generate_linear_terms (fun _ => true) ru) = z).
      { intros z. unfold u_transport in E. destruct (String.eqb opt "vector_invariant_form"); [|destruct (String.eqb opt "circulation_form"); [|destruct (String.eqb opt "vector_advection_form"); [|discriminate]]];
        injection E as <-; cbn; split; ring. }
      rewrite (proj1 (U _)), (proj2 (U _)). reflexivity. }
    rewrite ML, (boussinesq_rhs false opt cs r) by auto. unfold mass_u, mass_s. cbn [f_u f_D f_b T].
    rewrite (dx_0 G (fun k => vdot d _ (v_val (u_at zero_u k)))) by (intros; apply vdot_zero_r).
    rewrite (dx_0 G (fun k => sv (f_b xF) k * sv zb k)) by (intros; rewrite Hzb; ring). ring. }
  assert (Fo : suml (fun t => if is_mass t || is_slow t then 0 else - (if is_implicit t then dt else alpha * dt) * t_form t x T) r
               = - dt * DX (fun k => sv q k * (sv (f_D x) k - v_div d (u_at (f_u x) k)))).
  { clear - Hr Hzb CV. unfold boussinesq, boussinesq_setup in Hr. destruct (u_transport _ _ _ _ _) as [ru|] eqn:E; [|discriminate]. injection Hr as <-.
    cbn. rewrite generate_app. unfold suml. rewrite !fold_right_app. cbn.
    assert (U : forall z, fold_right (fun t acc => (if is_mass t || is_slow t then 0 else - (if is_implicit t then dt else alpha * dt) * t_form t x T) + acc) z (generate_linear_terms (fun _ => true) ru) = z).
    { intros z. unfold u_transport in E. destruct (String.eqb opt "vector_invariant_form"); [|destruct (String.eqb opt "circulation_form"); [|destruct (String.eqb opt "vector_advection_form"); [|discriminate]]];
      injection E as <-; cbn; try ring. rewrite dx_0; [ring|]. intros k. unfold kinetic_energy. change (v_div d {| v_val := fun _ => 0; v_grad := fun _ _ => 0 |}) with (v_div d (u_at zero_u k)). rewrite div_zero_u. ring. }
    rewrite U. 
    rewrite (dx_0 G (fun k => - v_div d _ * sv (f_D x) k)) by (intros k; change (v_div d {| v_val := fun _ => 0; v_grad := fun _ _ => 0 |}) with (v_div d (u_at zero_u k)); rewrite div_zero_u; ring).
    rewrite (dx_0 G (fun k => - sv (f_b x) k * _)) by (intros; rewrite vdot_zero_l; ring). ring. }
  rewrite M, Fo in HF.
  rewrite (dx_ext G (fun k => sv (f_D xrhs) k * sv q k) (fun k => sv q k * (p_in k - sv (f_D x) k) + sv (f_D xF) k * sv q k)) by (intros; rewrite Hx; ring).
  rewrite dx_plus, HF. unfold flux_div.
  rewrite (dx_ext G (fun k => sv q k * (sv (f_D x) k - v_div d (u_at (f_u x) k))) (fun k => sv q k * sv (f_D x) k + -1 * (sv q k * v_div d (u_at (f_u x) k)))) by (intros; ring).
  rewrite dx_plus, dx_scale. ring.
Qed.

(** ** Thermal shallow water *)
Notation thermal := (thermal_shallow_water G d circ perp).
Let tprog := ["u"; "D"; "b"]%string.
Definition continuity_ref (u : velocity_field) (test ref : sfield) : R := DX (fun k => sv test k * (sv ref k * v_div d (u_at u k) + vdot d (v_val (u_at u k)) (sg ref k))).
Definition coriolis_value (f : option (nat -> R)) (u w : velocity_field) : R :=
  match f with Some f => DX (fun k => f k * vdot d (perp k (v_val (u_at u k))) (v_val (u_at w k))) | None => 0 end.
Lemma linear_cont_rest (q : nat -> R) (s sr : sfield) (u ub : velocity_field) : at_rest ub ->
  DX (fun k => linear_continuity d (q k) (at_ s k) (u_at u k) (at_ sr k) (u_at ub k)) = DX (fun k => q k * (sv sr k * v_div d (u_at u k) + vdot d (v_val (u_at u k)) (sg sr k))).
Proof.
  intros H. unfold linear_continuity. rewrite dx_plus. rewrite (dx_0 G (fun k => continuity _ _ _ (u_at ub k))); [rewrite Rplus_0_l; reflexivity|].
  intros k. unfold continuity. rewrite (v_div_zero d _ (H k)). rewrite rsum_0; [ring|]. intros i _. rewrite (proj1 (H k i 0%nat)). ring.
Qed.
Lemma u_transport_filter opt ru : u_transport G d circ opt true = Ok ru -> filter (fun t => negb (has_lab "pressure_gradient" t)) ru = ru.
Proof.
  unfold u_transport. destruct (String.eqb opt "vector_invariant_form"); [|destruct (String.eqb opt "circulation_form"); [|destruct (String.eqb opt "vector_advection_form"); [|discriminate]]];
  intros H; injection H as <-; reflexivity.
Qed.
Lemma thermal_sums opt g f r c topogD X Xr tr T : thermal None opt (fun _ => true) true g f None topogD = Ok r -> at_rest (f_u Xr) ->
  (forall t, has_lab "time_derivative" t = true -> c t = 1) -> forall cD cb cu,
  (forall t, has_lab "time_derivative" t = false -> t_field t = "D"%string -> is_implicit t = false -> c t = cD) ->
  (forall t, has_lab "time_derivative" t = false -> t_field t = "b"%string -> is_implicit t = false -> c t = cb) ->
  (forall t, has_lab "time_derivative" t = false -> t_field t = "u"%string -> is_implicit t = false -> c t = cu) ->
  linear_sum c r X Xr tr T = mass_u G d tr T + mass_s G f_D tr T + mass_s G f_b tr T
    + cD * continuity_ref (f_u tr) (f_D T) (f_D Xr) + cb * advect_ref (f_u tr) (f_b T) (f_b Xr)
    + cu * (thermal_linear_source G d (f_D tr) (f_b tr) (f_D Xr) (f_b Xr) (f_u T) + coriolis_value f (f_u tr) (f_u T)).
Proof.
  intros Hr HX Hm cD cb cu HD Hb Hu.
  unfold thermal_shallow_water, thermal_setup, sw_setup in Hr. destruct (u_transport _ _ _ _ _) as [ru|] eqn:E; [|discriminate].
  rewrite !filter_app in Hr. rewrite (u_transport_filter opt ru E) in Hr.
  apply (f_equal (fun v => match v with Ok a => a | Err _ => [] end)) in Hr. cbv beta iota in Hr. subst r.
  assert (A1 : DX (fun k => linear_continuity d (sv (f_D T) k) (at_ (f_D tr) k) (u_at (f_u tr) k) (at_ (f_D Xr) k) (u_at (f_u Xr) k)) = continuity_ref (f_u tr) (f_D T) (f_D Xr)) by (apply linear_cont_rest; auto).
  assert (A2 : DX (fun k => linear_advection d (sv (f_b T) k) (at_ (f_b tr) k) (u_at (f_u tr) k) (at_ (f_b Xr) k) (u_at (f_u Xr) k)) = advect_ref (f_u tr) (f_b T) (f_b Xr)) by (apply linear_adv_rest; auto).
  rewrite !generate_app, !linear_sum_app. rewrite (u_transport_lin _ _ _ _ _ _ _ _ _ _ CV E HX).
  destruct f as [f|]; cbn [filter opt_list has_lab mass_term_u mass_term_s continuity_term advection_term coriolis_term term t_labels mem existsb String.eqb Ascii.eqb Bool.eqb orb negb generate_linear_terms List.map generate_linear_term t_lin t_deriv lin_of app];
    repeat first [rewrite linear_sum_cons | rewrite linear_sum_nil]; unfold linear_part; cbn [t_lin t_field t_labels];
    rewrite ?A1, ?A2;
    repeat match goal with |- context [c ?t] =>
      first [ rewrite (Hm t) by reflexivity | rewrite (HD t) by reflexivity | rewrite (Hb t) by reflexivity | rewrite (Hu t) by reflexivity ] end;
    unfold coriolis_value, coriolis_form; cbn [t_lin continuity_term coriolis_term advection_term term]; rewrite ?A1, ?A2; unfold coriolis_form; ring.
Qed.

(** divergences of velocities are in the space of b; normal components are continuous *)
Definition divergences (Vu : velocity_field -> Prop) (Vb : sfield -> Prop) : Prop := forall w, Vu w -> exists c, Vb c /\ forall k, sv c k = v_div d (u_at w k).
Definition normal_continuous (Vu : velocity_field -> Prop) : Prop := forall w f, Vu w -> u_np w f + u_nm w f = 0.
Definition uniform_field (s : sfield) (H : R) : Prop := (forall k i, sv s k = H /\ sg s k i = 0) /\ (forall f, sp s f = H /\ sm s f = H).
Lemma weak_grad_uniform s b w H : uniform_field s H -> (forall f, u_np w f + u_nm w f = 0) -> weak_grad G d s b w = - H * DX (fun k => sv b k * v_div d (u_at w k)).
Proof.
  intros [H1 H2] N. unfold weak_grad.
  rewrite (dx_ext G _ (fun k => H * (sv b k * v_div d (u_at w k)))).
  2:{ intros k. rewrite (proj1 (H1 k 0%nat)). unfold vdot. rewrite rsum_0; [ring|]. intros i _. rewrite (proj2 (H1 k i)). ring. }
  rewrite dx_scale. rewrite (dS_ext G _ (fun f => 0 * avg_ b f)); [rewrite dS_scale; ring|].
  intros f. unfold jump_. rewrite (proj1 (H2 f)), (proj2 (H2 f)). rewrite <- Rmult_plus_distr_l, N. ring.
Qed.
Lemma weak_grad_zero_field s w : weak_grad G d s zero_s w = 0.
Proof.
  unfold weak_grad. rewrite dx_0 by (intros; cbn; ring). rewrite (dS_ext G _ (fun f => 0 * jump_ s w f)); [rewrite dS_scale; ring|]. intros. unfold avg_. cbn. ring.
Qed.
Lemma weak_grad_zero_weight s w : weak_grad G d zero_s s w = 0.
Proof.
  unfold weak_grad. rewrite dx_0. 2:{ intros. cbn. rewrite vdot_zero_r. ring. } rewrite (dS_ext G _ (fun f => 0 * avg_ s f)); [rewrite dS_scale; ring|]. intros. unfold jump_. cbn. ring.
Qed.
Lemma weak_grad_zero_u s b : weak_grad G d s b zero_u = 0.
Proof.
  unfold weak_grad. rewrite dx_0. 2:{ intros. rewrite div_zero_u. cbn. rewrite vdot_zero_l. ring. } rewrite (dS_ext G _ (fun f => 0 * avg_ b f)); [rewrite dS_scale; ring|]. intros. unfold jump_. cbn. ring.
Qed.
(** Dry thermal shallow water without topography, with or without rotation, reference state at rest with uniform depth and
    any buoyancy: the preset with the relaxation parameters of the linear system gives the solution of the linear system *)
Theorem thermal_preset_exact : perp_of_rest perp -> forall opt g f topogD r tau alpha dt X Xr H (Vu : velocity_field -> Prop) (Vp Vb : sfield -> Prop) xrhs u p b,
  thermal None opt (fun _ => true) true g f None topogD = Ok r ->
  at_rest (f_u Xr) -> uniform_field (f_D Xr) H -> divergences Vu Vb -> normal_continuous Vu ->
  schur_split (fun tr T => qn_lhs r tprog tau alpha dt X Xr tr T) (fun T => qn_rhs r X Xr (zero_non_prognostics tprog tprog xrhs) T)
    (fun u p w q => Ok (thermal_schur G d perp tau alpha dt f (f_D Xr) (f_b Xr) u p w q)) Vu Vp Vb u p b ->
  qn_solution r tprog tprog tau alpha dt X Xr (mixed Vu Vp Vb) xrhs (together u p b).
Proof.
  intros PR opt g f topogD r tau alpha dt X Xr H Vu Vp Vb xrhs u p b Hr HX HD HV HN (Uu & Up & Ub & y & Uy & Ey & Es & Eb).
  split; [split; [exact Uu|split; [exact Up|exact Ub]]|]. intros T (Tu & Tp & Tb).
  assert (L : forall tr T, qn_lhs r tprog tau alpha dt X Xr tr T = mass_u G d tr T + mass_s G f_D tr T + mass_s G f_b tr T
    + dt * relaxation tau alpha "D" * continuity_ref (f_u tr) (f_D T) (f_D Xr) + dt * relaxation tau alpha "b" * advect_ref (f_u tr) (f_b T) (f_b Xr)
    + dt * relaxation tau alpha "u" * (thermal_linear_source G d (f_D tr) (f_b tr) (f_D Xr) (f_b Xr) (f_u T) + coriolis_value f (f_u tr) (f_u T))).
  { intros tr T0. assert (ND : NoDup tprog) by (repeat constructor; cbn; intuition discriminate).
    destruct (linear_system_weights r tprog tau alpha dt X Xr tr T0 ND) as [-> _].
    eapply thermal_sums; eauto; intros t Ht; unfold weight; rewrite Ht; auto; intros -> Hi; unfold is_implicit in Hi; rewrite Hi; reflexivity. }
  assert (Rh : forall T, qn_rhs r X Xr (zero_non_prognostics tprog tprog xrhs) T = mass_u G d xrhs T + mass_s G f_D xrhs T + mass_s G f_b xrhs T).
  { intros T0. destruct (linear_system_weights r [] [] 0 0 X Xr (zero_non_prognostics tprog tprog xrhs) T0 ltac:(constructor)) as [_ ->].
    rewrite (thermal_sums opt g f r _ topogD X Xr (zero_non_prognostics tprog tprog xrhs) T0 Hr HX) with (cD := 0) (cb := 0) (cu := 0);
      [unfold mass_u, mass_s; cbn [zero_non_prognostics f_u f_D f_b nth mem existsb tprog String.eqb Ascii.eqb Bool.eqb orb]; ring|..]; intros t ->; auto. }
  set (tu := relaxation tau alpha "u") in *. set (tD := relaxation tau alpha "D") in *. set (tb := relaxation tau alpha "b") in *.
  specialize (Es (f_u T) (f_D T) Tu Tp). pose proof (Eb (f_b T) Tb) as Eb'.
  destruct (HV _ Tu) as (c & Uc & Hc). pose proof (Ey c Uc) as Ey'. pose proof (Eb c Uc) as Ebc.
  apply (f_equal (fun v => match v with Ok a => a | Err _ => 0 end)) in Es. cbv beta iota in Es.
  rewrite Rh in *. rewrite !L in *. unfold together, only_b, only_up in *. cbn [f_u f_D f_b] in *.
  unfold thermal_linear_source in *. 
  assert (WH : forall s, weak_grad G d (f_D Xr) s (f_u T) = - H * DX (fun k => sv s k * v_div d (u_at (f_u T) k))) by (intros; apply weak_grad_uniform; auto).
  assert (Cz : coriolis_value f zero_u (f_u T) = 0 /\ forall z, coriolis_value f z zero_u = 0).
  { unfold coriolis_value. destruct f as [f|]; [|split; auto]. split; intros; apply dx_0; intros k; [|rewrite vdot_zero_r; ring].
    unfold vdot. rewrite rsum_0; [ring|]. intros i _. rewrite PR; [ring|]. reflexivity. }
  destruct Cz as [Cz1 Cz2].
  assert (Ec : forall s, DX (fun k => sv s k * sv c k) = DX (fun k => sv s k * v_div d (u_at (f_u T) k))) by (intros; apply dx_ext; intros; rewrite Hc; reflexivity).
  unfold thermal_schur in Es. cbv zeta in Es. rewrite !tau_get_relaxation in Es. fold tu tD tb in Es.
  assert (Hs : DX (fun k => sv (f_D Xr) k * (- vdot d (v_val (u_at u k)) (sg (f_b Xr) k) * (dt * tb)) * v_div d (u_at (f_u T) k)) = - (dt * tb) * H * advect_ref u c (f_b Xr)).
  { unfold advect_ref. rewrite <- dx_scale. apply dx_ext. intros k. rewrite Hc, (proj1 (proj1 HD k 0%nat)). ring. }
  assert (Hf : match f with Some f => dt * tu * DX (fun k => f k * vdot d (v_val (u_at (f_u T) k)) (perp k (v_val (u_at u k)))) | None => 0 end = dt * tu * coriolis_value f u (f_u T)).
  { unfold coriolis_value. destruct f; [|ring]. f_equal. apply dx_ext. intros k. f_equal. apply vdot_comm. }
  rewrite Hs, Hf in Es. rewrite !WH, ?weak_grad_zero_field, ?weak_grad_zero_weight, ?weak_grad_zero_u, ?Cz1, ?Cz2 in *.
  unfold mass_u, mass_s, advect_ref, continuity_ref in *. cbn [f_u f_D f_b] in *.
  revert Es Ey' Ebc Eb'. zeros.
  rewrite (dx_ext G (fun k => vdot d (v_val (u_at (f_u T) k)) (v_val (u_at u k))) (fun k => vdot d (v_val (u_at u k)) (v_val (u_at (f_u T) k)))) by (intros; apply vdot_comm).
  rewrite (dx_ext G (fun k => sv (f_D T) k * sv p k) (fun k => sv p k * sv (f_D T) k)) by (intros; ring).
  rewrite (dx_0 G (fun k => sv (f_D T) k * (sv (f_D Xr) k * v_div d (u_at zero_u k) + vdot d (v_val (u_at zero_u k)) (sg (f_D Xr) k)))) by (intros; rewrite div_zero_u; cbn; rewrite vdot_zero_l; ring).
  rewrite (Ec b), (Ec y), (Ec (f_b xrhs)). intros Es Ey' Ebc Eb'.
  set (B := DX (fun k => sv b k * v_div d (u_at (f_u T) k))) in *. set (Y := DX (fun k => sv y k * v_div d (u_at (f_u T) k))) in *.
  set (A := DX (fun k => sv c k * vdot d (v_val (u_at u k)) (sg (f_b Xr) k))) in *.
  assert (HB : B = Y - dt * tb * A) by lra. rewrite HB. lra.
Qed.
End Presets.

(** ** Two cells between two nodes (periodic), two points per cell: velocities and buoyancies given by values at the nodes, pressures by values in the cells *)
Definition ring2 : geometry := {| ncp := 4; cw := fun _ => 1/2; nfp := 0; fw := fun _ => 0; nbp := 0; bw := fun _ => 0 |}.
Definition at_nodes (a0 a1 : R) (k : nat) : R := match k with 0%nat | 3%nat => a0 | _ => a1 end.
Definition in_cells (a0 a1 : R) (k : nat) : R := match k with 0%nat | 1%nat => a0 | _ => a1 end.
Definition ru (a0 a1 : R) : velocity_field :=
  {| u_at := fun k => {| v_val := fun _ => at_nodes a0 a1 k; v_grad := fun _ _ => in_cells (a1 - a0) (a0 - a1) k |}; u_np := fun _ => 0; u_nm := fun _ => 0; u_nb := fun _ => 0 |}.
Definition rb (a0 a1 : R) : sfield := {| sv := at_nodes a0 a1; sg := fun k _ => in_cells (a1 - a0) (a0 - a1) k; sp := fun _ => 0; sm := fun _ => 0; sb := fun _ => 0 |}.
Definition rp (a0 a1 : R) : sfield := {| sv := in_cells a0 a1; sg := fun _ _ => 0; sp := fun _ => 0; sm := fun _ => 0; sb := fun _ => 0 |}.
Definition ref_field (v g : R) : sfield := {| sv := fun _ => v; sg := fun _ _ => g; sp := fun _ => v; sm := fun _ => v; sb := fun _ => v |}.
Definition RVu (u : velocity_field) : Prop := exists a b, u = ru a b.
Definition RVb (s : sfield) : Prop := exists a b, s = rb a b.
Definition RVp (s : sfield) : Prop := exists a b, s = rp a b.
Definition no_circ : nat -> (nat -> R) -> vpoint -> vpoint -> R := fun _ _ _ _ => 0.
Lemma no_circ_vanishes : circ_vanishes no_circ.
Proof. intros k w a b _. reflexivity. Qed.
Definition no_perp : nat -> (nat -> R) -> nat -> R := fun _ _ _ => 0.
Definition up1 : nat -> nat -> R := fun _ _ => 1.
Definition ring_bous (compressible : bool) : list eqterm :=
  match boussinesq ring2 1 no_circ up1 compressible false "vector_advection_form" (fun _ => true) true 1 None with Ok r => r | Err _ => [] end.
Lemma ring_bous_ok c : boussinesq ring2 1 no_circ up1 c false "vector_advection_form" (fun _ => true) true 1 None = Ok (ring_bous c).
Proof. reflexivity. Qed.
Definition ring_ref (Dgrad bgrad : R) : fields := {| f_u := zero_u; f_D := ref_field 0 Dgrad; f_b := ref_field 0 bgrad; f_q := zero_s |}.
Definition progs := ["u"; "p"; "b"]%string.
Lemma rest_zero : at_rest zero_u.
Proof. intros k i j. cbn. auto. Qed.
Lemma ring_vertical : vertical_components 1 up1 RVu RVb.
Proof. intros w (a & b & ->). exists (rb a b). split; [exists a, b; reflexivity|]. intros k. unfold vdot, up1. cbn. ring. Qed.
Lemma ring_profile g : vertical_profile 1 up1 (ref_field 0 g).
Proof. intros k i. unfold vdot, up1. cbn. ring. Qed.
Ltac spaces := split; [|split]; unfold RVu, RVb, RVp, together; cbn [f_u f_D f_b]; eauto.
Ltac calc := unfold mass_u, mass_s, flux_div, along_k, advect_ref, dx, vdot, v_div, up1; cbn; lra.
Lemma ring_lhs c tau alpha dt g1 g2 tr T :
  qn_lhs (ring_bous c) progs tau alpha dt (ring_ref g1 g2) (ring_ref g1 g2) tr T =
    mass_u ring2 1 tr T + mass_s ring2 f_D tr T + mass_s ring2 f_b tr T
    + (if c then dt * relaxation tau alpha "p"%string * (advect_ref ring2 1 (f_u tr) (f_D T) (ref_field 0 g1) + 1 ^ 2 * flux_div ring2 1 (f_u tr) (f_D T))
       else dt * (mass_s ring2 f_D tr T - flux_div ring2 1 (f_u tr) (f_D T)))
    + dt * relaxation tau alpha "b"%string * advect_ref ring2 1 (f_u tr) (f_b T) (ref_field 0 g2)
    - dt * relaxation tau alpha "u"%string * (flux_div ring2 1 (f_u T) (f_D tr) + along_k ring2 1 up1 (f_u T) (f_b tr)).
Proof. exact (boussinesq_lhs ring2 1 no_circ no_perp up1 no_circ_vanishes c _ _ _ tau alpha dt (ring_ref g1 g2) (ring_ref g1 g2) tr T (ring_bous_ok c) rest_zero). Qed.
Lemma ring_rhs c g1 g2 x T : qn_rhs (ring_bous c) (ring_ref g1 g2) (ring_ref g1 g2) x T = mass_u ring2 1 x T + mass_s ring2 f_D x T + mass_s ring2 f_b x T.
Proof. exact (boussinesq_rhs ring2 1 no_circ up1 no_circ_vanishes c _ _ _ (ring_ref g1 g2) (ring_ref g1 g2) x T (ring_bous_ok c) rest_zero). Qed.
Ltac formulas c := rewrite ?ring_lhs, ?ring_rhs; unfold relaxation, lookup; cbn [find fst snd String.eqb Ascii.eqb Bool.eqb].
Definition ring_split (c : bool) tau alpha dt Xr xrhs u p b : Prop :=
  schur_split (fun tr T => qn_lhs (ring_bous c) progs tau alpha dt Xr Xr tr T) (fun T => qn_rhs (ring_bous c) Xr Xr (zero_non_prognostics progs progs xrhs) T)
    (boussinesq_schur ring2 1 up1 c [] alpha dt 1 None None (f_b Xr)) RVu RVp RVb u p b.
(** a case that meets the hypotheses of boussinesq_preset_exact, with stratification *)
Example ring_boussinesq : ring_split true [] (1/2) 1 (ring_ref 0 1) (together (ru 1 1) (rp 0 0) (rb 0 0)) (ru (4/5) (4/5)) (rp 0 0) (rb (-2/5) (-2/5)) /\
  qn_solution (ring_bous true) progs progs [] (1/2) 1 (ring_ref 0 1) (ring_ref 0 1) (mixed RVu RVp RVb) (together (ru 1 1) (rp 0 0) (rb 0 0)) (together (ru (4/5) (4/5)) (rp 0 0) (rb (-2/5) (-2/5))).
Proof.
  assert (S : ring_split true [] (1/2) 1 (ring_ref 0 1) (together (ru 1 1) (rp 0 0) (rb 0 0)) (ru (4/5) (4/5)) (rp 0 0) (rb (-2/5) (-2/5))).
  { repeat split; try (unfold RVu, RVb, RVp; eauto; fail). exists (rb 0 0). split; [unfold RVb; eauto|]. split; [|split].
    - intros c (c0 & c1 & ->). formulas true. calc.
    - intros w q (w0 & w1 & ->) (q0 & q1 & ->). formulas true. unfold boussinesq_schur. f_equal. cbn [tau_get lookup find]. calc.
    - intros c (c0 & c1 & ->). formulas true. calc. }
  split; [exact S|].
  revert S. unfold ring_split. intros S.
  pose proof (fun opt cs r0 => boussinesq_preset_exact ring2 1 no_circ no_perp up1 no_circ_vanishes opt cs r0 None [] (1/2) 1 (ring_ref 0 1) (ring_ref 0 1)) as E. unfold with_sponge in E.
  specialize (E _ _ _ RVu RVp RVb (together (ru 1 1) (rp 0 0) (rb 0 0)) (ru (4/5) (4/5)) (rp 0 0) (rb (-2/5) (-2/5)) (ring_bous_ok true)). cbv zeta in E. rewrite app_nil_r in E.
  eapply E; [exact rest_zero| |apply ring_profile|exact ring_vertical|exact S].
  reflexivity.
Qed.
(** Relaxation parameters of the user are not known to the preset: its result does not solve the linear system *)
Theorem boussinesq_preset_tau_refuted : exists tau alpha dt Xr xrhs u p b, at_rest (f_u Xr) /\ (forall k i, sg (f_D Xr) k i = 0) /\
  ring_split true tau alpha dt Xr xrhs u p b /\ ~ qn_solution (ring_bous true) progs progs tau alpha dt Xr Xr (mixed RVu RVp RVb) xrhs (together u p b).
Proof.
  exists [("u"%string, 1); ("b"%string, 1)], (1/2), 1, (ring_ref 0 1), (together (ru 1 1) (rp 0 0) (rb 0 0)), (ru (4/5) (4/5)), (rp 0 0), (rb (-4/5) (-4/5)).
  split; [exact rest_zero|]. split; [reflexivity|]. split.
  - repeat split; try (unfold RVu, RVb, RVp; eauto; fail). exists (rb 0 0). split; [unfold RVb; eauto|]. split; [|split].
    + intros c (c0 & c1 & ->). formulas true. calc.
    + intros w q (w0 & w1 & ->) (q0 & q1 & ->). formulas true. unfold boussinesq_schur. f_equal. cbn [tau_get lookup find]. calc.
    + intros c (c0 & c1 & ->). formulas true. calc.
  - intros [_ H]. specialize (H (together (ru 1 1) (rp 0 0) (rb 0 0)) ltac:(spaces)). revert H. formulas true. calc.
Qed.
(** The preset neglects the advection of the reference pressure, which is part of the linear system *)
Theorem boussinesq_preset_pressure_refuted : exists alpha dt Xr xrhs u p b, at_rest (f_u Xr) /\ ring_split true [] alpha dt Xr xrhs u p b /\
  ~ qn_solution (ring_bous true) progs progs [] alpha dt Xr Xr (mixed RVu RVp RVb) xrhs (together u p b).
Proof.
  exists (1/2), 1, (ring_ref 1 0), (together (ru 1 1) (rp 0 0) (rb 0 0)), (ru 1 1), (rp 0 0), (rb 0 0).
  split; [exact rest_zero|]. split.
  - repeat split; try (unfold RVu, RVb, RVp; eauto; fail). exists (rb 0 0). split; [unfold RVb; eauto|]. split; [|split].
    + intros c (c0 & c1 & ->). formulas true. calc.
    + intros w q (w0 & w1 & ->) (q0 & q1 & ->). formulas true. unfold boussinesq_schur. f_equal. cbn [tau_get lookup find]. calc.
    + intros c (c0 & c1 & ->). formulas true. calc.
  - intros [_ H]. specialize (H (together (ru 0 0) (rp 1 1) (rb 0 0)) ltac:(spaces)). revert H. formulas true. calc.
Qed.
(** Incompressible Boussinesq: from a velocity without divergence, the first increment has divergence - dt p; and it does not solve the linear system *)
Theorem incompressible_preset_refuted : exists alpha dt Xr x xF u p b,
  at_rest (f_u Xr) /\ mixed RVu RVp RVb x /\ (forall k, v_div 1 (u_at (f_u x) k) = 0) /\
  implicit_forcing (ring_bous false) alpha dt (mixed RVu RVp RVb) x xF /\
  ring_split false [] alpha dt Xr xF u p b /\
  (exists k, v_div 1 (u_at u k) <> 0) /\ ~ qn_solution (ring_bous false) progs progs [] alpha dt Xr Xr (mixed RVu RVp RVb) xF (together u p b).
Proof.
  exists (1/2), 1, (ring_ref 0 0), (together (ru 0 0) (rp 1 (-1)) (rb 0 0)), (together (ru (-1) 1) (rp (-1) 1) (rb 0 0)), (ru (1/2) (-1/2)), (rp (-3/2) (3/2)), (rb 0 0).
  split; [exact rest_zero|]. split; [spaces|]. split; [|split; [|split; [|split]]].
  - intros k. unfold v_div. cbn. unfold in_cells. destruct k as [|[|k]]; lra.
  - split; [spaces|]. intros T (w & q & c). destruct T as [tu tp tb tq]. cbn [f_u f_D f_b] in *.
    destruct w as (w0 & w1 & ->). destruct q as (q0 & q1 & ->). destruct c as (c0 & c1 & ->).
    unfold mass, suml, ring_bous, boussinesq, boussinesq_setup. cbn. unfold mass_u, mass_s, kinetic_energy, vector_advection, dx, vdot, v_div, up1. cbn. lra.
  - repeat split; try (unfold RVu, RVb, RVp; eauto; fail). exists (rb 0 0). split; [unfold RVb; eauto|]. split; [|split].
    + intros c (c0 & c1 & ->). formulas false. calc.
    + intros w q (w0 & w1 & ->) (q0 & q1 & ->). formulas false. unfold boussinesq_schur. f_equal. cbn [tau_get lookup find]. calc.
    + intros c (c0 & c1 & ->). formulas false. calc.
  - exists 0%nat. unfold v_div. cbn. lra.
  - intros [_ H]. specialize (H (together (ru 0 0) (rp 1 0) (rb 0 0)) ltac:(spaces)). revert H. formulas false. calc.
Qed.

(** ** Which fields the presets deal with *)
(** every field is in exactly one of the groups; those left alone are those that are not solver prognostics *)
Definition complete_split (s : split) (names sprog : list string) : Prop :=
  Permutation (eliminated s ++ hybridised s ++ untouched s)%list (seq 0 (length names)) /\
  forall i, (i < length names)%nat -> In i (untouched s) <-> ~ In (nth i names EmptyString) sprog.
(** the number of fields that the preset solves for *)
Definition core_fields (k : equation_kind) : nat := match k with ShallowWaterKind => 2 | _ => 3 end.
Lemma mem_true n l : mem n l = true <-> In n l.
Proof. unfold mem. rewrite existsb_exists. split; [intros (x & H & E); apply String.eqb_eq in E; subst; auto|intros H; exists n; split; auto; apply String.eqb_refl]. Qed.
Lemma filter_false {A} (f : A -> bool) l : (forall a, In a l -> f a = false) -> filter f l = [].
Proof. induction l as [|a l IH]; intros H; [reflexivity|]. cbn. rewrite (H a) by (left; auto). apply IH. intros. apply H. right; auto. Qed.
Lemma filter_true {A} (f : A -> bool) l : (forall a, In a l -> f a = true) -> filter f l = l.
Proof. induction l as [|a l IH]; intros H; [reflexivity|]. cbn. rewrite (H a) by (left; auto). f_equal. apply IH. intros. apply H. right; auto. Qed.
Lemma in_combine_seq {A} (l : list A) : forall s i a, In (i, a) (combine (seq s (length l)) l) -> In a l.
Proof. intros s i a H. eapply in_combine_r. exact H. Qed.
Lemma map_fst_combine {A B} (l : list A) : forall (l' : list B), length l = length l' -> map fst (combine l l') = l.
Proof. induction l as [|a l IH]; intros [|b l'] H; try discriminate; [reflexivity|]. cbn. f_equal. apply IH. cbn in H. congruence. Qed.
Lemma combine_app {A B} (l1 : list A) : forall (m1 : list B) l2 m2, length l1 = length m1 -> combine (l1 ++ l2) (m1 ++ m2) = (combine l1 m1 ++ combine l2 m2)%list.
Proof. induction l1 as [|a l1 IH]; intros [|b m1] l2 m2 H; try discriminate; [reflexivity|]. cbn. f_equal. apply IH. cbn in H. congruence. Qed.
Lemma tracer_indices_app core rest : NoDup (core ++ rest) -> forall sprog, (forall n, In n sprog <-> In n core) ->
  tracer_indices (core ++ rest) sprog = seq (length core) (length rest).
Proof.
  intros ND sprog E. unfold tracer_indices. rewrite app_length, seq_app, combine_app by apply seq_length. rewrite filter_app, map_app.
  rewrite filter_false, filter_true.
  - cbn. apply map_fst_combine. apply seq_length.
  - intros [i n] H. cbn. apply in_combine_r in H. destruct (mem n sprog) eqn:M; [|reflexivity]. apply mem_true, E in M. exfalso.
    clear - ND H M. induction core as [|a c IH]; [destruct M|]. cbn in ND. inversion ND; subst. destruct M as [->|M]; [apply H2; apply in_or_app; auto|auto].
  - intros [i n] H. cbn. apply in_combine_r in H. apply E, mem_true in H. rewrite H. reflexivity.
Qed.
(** When the solver prognostics are the first fields (u, D or p, and b), each field is in one group and the tracers are left alone *)
Theorem preset_groups : forall k core rest sprog s, (k = ThermalKind \/ k = ShallowWaterKind \/ k = BoussinesqKind /\ rest = []) ->
  length core = core_fields k -> NoDup (core ++ rest)%list -> NoDup sprog -> (forall n, In n sprog <-> In n core) ->
  preset k (core ++ rest) sprog = Ok s -> complete_split s (core ++ rest) sprog.
Proof.
  intros k core rest sprog s K L ND NS E H.
  assert (LS : length sprog = length core).
  { apply Permutation_length. apply NoDup_Permutation; auto. clear - ND. induction core as [|a c IH]; [constructor|]. cbn in ND. inversion ND; subst.
    constructor; [intros H; apply H1; apply in_or_app; auto|auto]. }
  assert (Disj : forall n, In n core -> ~ In n rest).
  { intros n Hc Hr. clear - ND Hc Hr. induction core as [|a c IH]; [destruct Hc|]. cbn in ND. inversion ND; subst. destruct Hc as [->|Hc]; [apply H1; apply in_or_app; auto|auto]. }
  assert (Main : forall el hy un, un = seq (length core) (length rest) -> Permutation (el ++ hy) (seq 0 (length core)) ->
    complete_split {| eliminated := el; hybridised := hy; untouched := un |} (core ++ rest) sprog).
  { intros el hy un -> P. split; cbn [eliminated hybridised untouched].
    - rewrite app_assoc, app_length, seq_app. apply Permutation_app; [exact P|reflexivity].
    - intros i Hi. rewrite app_length in Hi. rewrite in_seq. split.
      + intros [Hl _] Hin. apply E in Hin. rewrite app_nth2 in Hin by auto. apply (Disj _ Hin). apply nth_In. lia.
      + intros Hn. split; [|lia]. destruct (le_lt_dec (length core) i) as [Hl|Hl]; [exact Hl|]. exfalso. apply Hn, E. rewrite app_nth1 by auto. apply nth_In. auto. }
  assert (Perm3 : Permutation ([2] ++ [0; 1])%nat (seq 0 3)) by (cbn; apply (Permutation_app_comm [2%nat] [0; 1]%nat)).
  destruct K as [-> | [-> | [-> ->]]]; cbn [core_fields] in L; unfold preset, some_tracers in H; rewrite ?app_length, ?LS, ?L in H.
  - destruct (Nat.ltb 3 (3 + length rest)) eqn:Lt; injection H as <-; apply Main; rewrite ?L; auto.
    + rewrite (tracer_indices_app core rest ND sprog E), L. reflexivity.
    + apply Nat.ltb_ge in Lt. destruct rest; [reflexivity|cbn in Lt; lia].
  - destruct (Nat.ltb 2 (2 + length rest)) eqn:Lt; injection H as <-; apply Main; rewrite ?L; auto.
    + rewrite (tracer_indices_app core rest ND sprog E), L. reflexivity.
    + apply Nat.ltb_ge in Lt. destruct rest; [reflexivity|cbn in Lt; lia].
    + apply Nat.ltb_ge in Lt. destruct rest; [reflexivity|cbn in Lt; lia].
  - injection H as <-. apply Main; rewrite ?L; auto.
Qed.
Example preset_groups_case : preset ThermalKind ["u"; "D"; "b"; "q"]%string ["u"; "D"; "b"]%string = Ok {| eliminated := [2]; hybridised := [0; 1]; untouched := [3] |}%nat.
Proof. reflexivity. Qed.
(** With the equivalent buoyancy and no further tracer, the default solver prognostics are all four fields, and the total moisture is in none of the groups *)
Theorem equivalent_buoyancy_groups_refuted : exists names sprog s, choose_prognostics names (Some []) None = Ok sprog /\ names = ["u"; "D"; "b_e"; "q_t"]%string /\
  preset ThermalKind names sprog = Ok s /\ ~ In 3%nat (eliminated s ++ hybridised s ++ untouched s)%list /\ ~ complete_split s names sprog.
Proof.
  exists ["u"; "D"; "b_e"; "q_t"]%string, ["u"; "D"; "b_e"; "q_t"]%string, {| eliminated := [2]; hybridised := [0; 1]; untouched := [] |}%nat.
  split; [reflexivity|]. split; [reflexivity|]. split; [reflexivity|]. split; [cbn; lia|].
  intros [P _]. apply Permutation_length in P. discriminate.
Qed.
(** With solver prognostics u and D the buoyancy is both eliminated and left alone *)
Theorem buoyancy_twice_refuted : exists names sprog s, choose_prognostics names (Some []) (Some sprog) = Ok sprog /\ preset ThermalKind names sprog = Ok s /\
  In 2%nat (eliminated s) /\ In 2%nat (untouched s) /\ ~ complete_split s names sprog.
Proof.
  exists ["u"; "D"; "b"]%string, ["u"; "D"]%string, {| eliminated := [2]; hybridised := [0; 1]; untouched := [2] |}%nat.
  split; [reflexivity|]. split; [reflexivity|]. split; [cbn; auto|]. split; [cbn; auto|].
  intros [P _]. apply Permutation_length in P. discriminate.
Qed.

(** ** Fields that are not solver prognostics are not changed by the linear solver *)
Definition only_q (q : sfield) : fields := {| f_u := zero_u; f_D := zero_s; f_b := zero_s; f_q := q |}.
Section Tracers.
Variables (G : geometry) (d : nat) (circ : nat -> (nat -> R) -> vpoint -> vpoint -> R) (perp : nat -> (nat -> R) -> nat -> R).
Hypothesis CV : circ_vanishes circ.
Notation DX := (dx G).
Lemma moist_sum_q m opt g f topogD r c X Xr tr q : thermal_shallow_water G d circ perp (Some m) opt (fun _ => true) true g f None topogD = Ok r -> at_rest (f_u Xr) ->
  (forall t, has_lab "time_derivative" t = true -> c t = 1) -> (forall t, has_lab "time_derivative" t = false -> t_field t = "q_t"%string -> c t = 0) ->
  linear_sum c r X Xr tr (only_q q) = DX (fun k => sv (f_q tr) k * sv q k).
Proof.
  intros Hr HX Hm Hq.
  unfold thermal_shallow_water, thermal_setup, sw_setup in Hr. destruct (u_transport _ _ _ _ _) as [ru|] eqn:E; [|discriminate].
  rewrite !filter_app in Hr. rewrite (u_transport_filter G d circ opt ru E) in Hr.
  apply (f_equal (fun v => match v with Ok a => a | Err _ => [] end)) in Hr. cbv beta iota in Hr. subst r.
  rewrite !generate_app, !linear_sum_app. rewrite (u_transport_lin _ _ _ _ _ _ _ _ _ _ CV E HX).
  assert (Z1 : forall (h : nat -> R), DX (fun k => h k * 0) = 0) by (intros; apply dx_0; intros; ring).
  assert (Z2 : forall v : nat -> (nat -> R), DX (fun k => vdot d (v k) (fun _ => 0)) = 0) by (intros; apply dx_0; intros; apply vdot_zero_r).
  assert (Z3 : forall a (b : nat -> vpoint) (c0 : nat -> spoint) (e : nat -> vpoint), DX (fun k => linear_continuity d 0 (a k) (b k) (c0 k) (e k)) = 0)
    by (intros; apply dx_0; intros; unfold linear_continuity, continuity; ring).
  assert (Z4 : forall a (b : nat -> vpoint) (c0 : nat -> spoint) (e : nat -> vpoint), DX (fun k => linear_advection d 0 (a k) (b k) (c0 k) (e k)) = 0)
    by (intros; apply dx_0; intros; unfold linear_advection, advection; ring).
  destruct f as [f|]; cbn [filter opt_list has_lab mass_term_u mass_term_s continuity_term advection_term coriolis_term term t_labels mem existsb String.eqb Ascii.eqb Bool.eqb orb negb generate_linear_terms List.map generate_linear_term t_lin t_deriv lin_of app];
    repeat first [rewrite linear_sum_cons | rewrite linear_sum_nil]; unfold linear_part; cbn [t_lin t_field t_labels];
    repeat match goal with |- context [c ?t] => first [ rewrite (Hm t) by reflexivity | rewrite (Hq t) by reflexivity ] end;
    cbn [t_lin continuity_term coriolis_term advection_term term only_q f_u f_D f_b f_q];
    unfold mass_u, mass_s, coriolis_form, moist_linear_source, thermal_linear_source; cbn [only_q f_u f_D f_b f_q];
    rewrite !weak_grad_zero_u; cbn [zero_s zero_u sv u_at v_val]; rewrite ?Z1, ?Z2, ?Z3, ?Z4; try ring.
  rewrite (dx_0 G (fun k => f k * _)) by (intros; rewrite vdot_zero_r; ring). ring.
Qed.
(** Moist thermal shallow water, total moisture not a solver prognostic: its increment is zero at every point, whatever the right-hand side *)
Theorem tracer_increment_zero : forall m opt g f topogD r names sprog tau alpha dt X Xr (V : fields -> Prop) xrhs dy,
  thermal_shallow_water G d circ perp (Some m) opt (fun _ => true) true g f None topogD = Ok r -> at_rest (f_u Xr) ->
  nth 3 names EmptyString = "q_t"%string -> NoDup sprog -> ~ In "q_t"%string sprog ->
  (forall x, V x -> V (only_q (f_q x))) -> (forall k, (k < ncp G)%nat -> 0 < cw G k) ->
  qn_solution r names sprog tau alpha dt X Xr V xrhs dy -> forall k, (k < ncp G)%nat -> sv (f_q dy) k = 0.
Proof.
  intros m opt g f topogD r names sprog tau alpha dt X Xr V xrhs dy Hr HX Hn ND Hq HV Hw [Vy Sy] k Hk.
  specialize (Sy (only_q (f_q dy)) (HV _ Vy)).
  rewrite (proj1 (linear_system_weights r sprog tau alpha dt X Xr dy (only_q (f_q dy)) ND)) in Sy.
  rewrite (proj2 (linear_system_weights r [] [] 0 0 X Xr _ (only_q (f_q dy)) ltac:(constructor))) in Sy.
  assert (Me : existsb (String.eqb "q_t") sprog = false).
  { destruct (existsb _ _) eqn:Ex; [|reflexivity]. exfalso. apply Hq. apply mem_true. exact Ex. }
  rewrite (moist_sum_q m opt g f topogD r) in Sy; auto.
  2:{ intros t Ht. unfold weight. rewrite Ht. reflexivity. }
  2:{ intros t Ht Hf. unfold weight. rewrite Ht, Hf, Me. reflexivity. }
  rewrite (moist_sum_q m opt g f topogD r) in Sy; auto.
  2:{ intros t Ht. rewrite Ht. reflexivity. }
  2:{ intros t Ht _. rewrite Ht. reflexivity. }
  cbn [zero_non_prognostics f_q] in Sy. rewrite Hn in Sy. unfold mem in Sy. rewrite Me in Sy.
  rewrite (dx_0 G (fun k => sv zero_s k * _)) in Sy by (intros; cbn; ring).
  apply Rsqr_0_uniq. unfold Rsqr. apply (dx_zero_of G (fun k => sv (f_q dy) k * sv (f_q dy) k)); auto. intros. apply Rle_0_sqr.
Qed.
End Tracers.
(** cases that meet the hypotheses of thermal_preset_exact and of tracer_increment_zero: a depth of one, a difference of buoyancy between the two cells *)
Definition thermal_ref : fields := {| f_u := zero_u; f_D := ref_field 1 0; f_b := ref_field 0 0; f_q := zero_s |}.
Definition ring_thermal (moist : option moist_parameters) : list eqterm :=
  match thermal_shallow_water ring2 1 no_circ no_perp moist "vector_advection_form" (fun _ => true) true 1 None None zero_s with Ok r => r | Err _ => [] end.
Lemma ring_thermal_ok m : thermal_shallow_water ring2 1 no_circ no_perp m "vector_advection_form" (fun _ => true) true 1 None None zero_s = Ok (ring_thermal m).
Proof. destruct m; reflexivity. Qed.
Definition thermal_progs := ["u"; "D"; "b"]%string.
Lemma ring_thermal_lhs tr T : qn_lhs (ring_thermal None) thermal_progs [] (1/2) 1 thermal_ref thermal_ref tr T =
  mass_u ring2 1 tr T + mass_s ring2 f_D tr T + mass_s ring2 f_b tr T
  + 1 * (1/2) * continuity_ref ring2 1 (f_u tr) (f_D T) (ref_field 1 0) + 1 * (1/2) * advect_ref ring2 1 (f_u tr) (f_b T) (ref_field 0 0)
  + 1 * (1/2) * (thermal_linear_source ring2 1 (f_D tr) (f_b tr) (ref_field 1 0) (ref_field 0 0) (f_u T) + 0).
Proof.
  assert (ND : NoDup thermal_progs) by (repeat constructor; cbn; intuition discriminate).
  destruct (linear_system_weights (ring_thermal None) thermal_progs [] (1/2) 1 thermal_ref thermal_ref tr T ND) as [-> _].
  apply (thermal_sums ring2 1 no_circ no_perp no_circ_vanishes _ _ None _ _ zero_s thermal_ref thermal_ref tr T (ring_thermal_ok None) rest_zero);
    intros t Ht; unfold weight; rewrite Ht; auto; intros -> Hi; unfold is_implicit in Hi; rewrite Hi; reflexivity.
Qed.
Lemma ring_thermal_rhs x T : qn_rhs (ring_thermal None) thermal_ref thermal_ref x T = mass_u ring2 1 x T + mass_s ring2 f_D x T + mass_s ring2 f_b x T.
Proof.
  destruct (linear_system_weights (ring_thermal None) [] [] 0 0 thermal_ref thermal_ref x T ltac:(constructor)) as [_ ->].
  rewrite (thermal_sums ring2 1 no_circ no_perp no_circ_vanishes _ _ None _ _ zero_s thermal_ref thermal_ref x T (ring_thermal_ok None) rest_zero) with (cD := 0) (cb := 0) (cu := 0);
    [ring|..]; intros t ->; auto.
Qed.
Ltac thermal_calc := rewrite ?ring_thermal_lhs, ?ring_thermal_rhs; unfold thermal_linear_source, weak_grad, continuity_ref, advect_ref, mass_u, mass_s, dx, dS_, vdot, v_div, tau_get, lookup, jump_, avg_; cbn; lra.
Example ring_thermal_case :
  schur_split (fun tr T => qn_lhs (ring_thermal None) thermal_progs [] (1/2) 1 thermal_ref thermal_ref tr T)
    (fun T => qn_rhs (ring_thermal None) thermal_ref thermal_ref (zero_non_prognostics thermal_progs thermal_progs (together (ru 0 0) (rp 0 0) (rp 1 (-1)))) T)
    (fun u p w q => Ok (thermal_schur ring2 1 no_perp [] (1/2) 1 None (ref_field 1 0) (ref_field 0 0) u p w q)) RVu RVp RVp
    (ru (-1/2) (1/2)) (rp (-1/2) (1/2)) (rp 1 (-1)) /\
  qn_solution (ring_thermal None) thermal_progs thermal_progs [] (1/2) 1 thermal_ref thermal_ref (mixed RVu RVp RVp)
    (together (ru 0 0) (rp 0 0) (rp 1 (-1))) (together (ru (-1/2) (1/2)) (rp (-1/2) (1/2)) (rp 1 (-1))).
Proof.
  match goal with |- ?A /\ _ => assert (S : A) end.
  { split; [unfold RVu; eauto|]. split; [unfold RVp; eauto|]. split; [unfold RVp; eauto|]. exists (rp 1 (-1)). split; [unfold RVp; eauto|]. split; [|split].
    - intros c (c0 & c1 & ->). thermal_calc.
    - intros w q (w0 & w1 & ->) (q0 & q1 & ->). f_equal. unfold thermal_schur. thermal_calc.
    - intros c (c0 & c1 & ->). thermal_calc. }
  split; [exact S|].
  eapply (thermal_preset_exact ring2 1 no_circ no_perp up1 no_circ_vanishes) with (Xr := thermal_ref) (H := 1); [..|exact S].
  - intros k u _ i. reflexivity.
  - apply ring_thermal_ok.
  - exact rest_zero.
  - split; intros; cbn; auto.
  - intros w (a & b & ->). exists (rp (b - a) (a - b)). split; [unfold RVp; eauto|]. intros k. unfold v_div. cbn. ring.
  - intros w f (a & b & ->). cbn. ring.
Qed.
Definition no_moist : moist_parameters := {| beta2 := 1; qsat := fun _ => ref_field 1 0 |}.
(** q_t does not change, although the right-hand side given to the solver has a part for it *)
Example ring_tracer_case : qn_solution (ring_thermal (Some no_moist)) ["u"; "D"; "b_e"; "q_t"]%string ["u"; "D"; "b_e"]%string [] (1/2) 1 thermal_ref thermal_ref
  (fun x => exists q, RVp q /\ x = only_q q) (only_q (rp 1 2)) (only_q (rp 0 0)).
Proof.
  assert (ND : NoDup ["u"; "D"; "b_e"]%string) by (repeat constructor; cbn; intuition discriminate).
  split; [exists (rp 0 0); split; [unfold RVp; eauto|reflexivity]|]. intros T (q & Hq & ->).
  rewrite (proj1 (linear_system_weights _ _ _ _ _ _ _ _ _ ND)).
  rewrite (proj2 (linear_system_weights _ [] [] 0 0 _ _ _ (only_q q) ltac:(constructor))).
  rewrite !(moist_sum_q ring2 1 no_circ no_perp no_circ_vanishes no_moist _ _ _ _ _ _ thermal_ref thermal_ref _ _ (ring_thermal_ok (Some no_moist)) rest_zero).
  - rewrite !dx_0; [reflexivity| |]; intros k; cbn; unfold in_cells; destruct k as [|[|k]]; ring.
  - intros t ->. reflexivity.
  - intros t -> _. reflexivity.
  - intros t Ht. unfold weight. rewrite Ht. reflexivity.
  - intros t Ht Hf. unfold weight. rewrite Ht, Hf. reflexivity.
Qed.
