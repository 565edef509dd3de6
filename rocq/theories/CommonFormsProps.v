(** C86-C89: continuous transport forms, their linearisations and splittings; diffusion. *)
From Verif Require Import Base Vec Transport TransportProps CommonForms.
From Coq Require Import String.
Open Scope R_scope.

(* ---- sums ---- *)
Lemma rsum_plus3 n f g h : rsum n (fun i => f i + g i + h i) = rsum n f + rsum n g + rsum n h.
Proof. rewrite <- !rsum_add. apply rsum_ext. intros. ring. Qed.

(** ** Specification: sums of fields *)
Definition splus (a b : spoint) : spoint := {| s_val := s_val a + s_val b; s_grad := fun i => s_grad a i + s_grad b i |}.
Definition vplus (a b : vpoint) : vpoint := {| v_val := fun i => v_val a i + v_val b i; v_grad := fun i j => v_grad a i j + v_grad b i j |}.

(** ** C86: the linearised forms are the derivatives of the nonlinear ones: the difference between the
    form of the perturbed fields and that of the mean fields is the linear form plus a quadratic rest. *)
Theorem linear_forms_are_derivatives :
  forall d test q u qbar ubar,
  advection d test (splus qbar q) (vplus ubar u) = advection d test qbar ubar + linear_advection d test q u qbar ubar + advection d test q u /\
  continuity d test (splus qbar q) (vplus ubar u) = continuity d test qbar ubar + linear_continuity d test q u qbar ubar + continuity d test q u.
Proof.
  intros d test q u qbar ubar.
  assert (X : rsum d (fun i => (v_val ubar i + v_val u i) * (s_grad qbar i + s_grad q i))
            = rsum d (fun i => v_val ubar i * s_grad qbar i) + (rsum d (fun i => v_val ubar i * s_grad q i) + rsum d (fun i => v_val u i * s_grad qbar i)) + rsum d (fun i => v_val u i * s_grad q i)).
  { rewrite <- !rsum_add. apply rsum_ext. intros. ring. }
  unfold linear_advection, linear_continuity, advection, continuity, v_div. cbn [splus vplus s_val s_grad v_val v_grad]. rewrite X, rsum_add. split; ring.
Qed.
Print Assumptions linear_forms_are_derivatives.

Definition circ_bilinear (circ : (nat -> R) -> vpoint -> vpoint -> R) : Prop :=
  forall test a b c e, circ test (vplus a b) (vplus c e) = circ test a c + circ test a e + circ test b c + circ test b e.
Theorem linear_vector_invariant_is_derivative :
  forall d circ test q ubar, (circ = circulation2 /\ d = 2%nat) \/ (circ = circulation3 /\ d = 3%nat) ->
  vector_invariant d circ test (vplus ubar q) (vplus ubar q)
  = vector_invariant d circ test ubar ubar + linear_vector_invariant d circ test q ubar + vector_invariant d circ test q q /\
  circ (v_val test) (vplus ubar q) (vplus ubar q)
  = circ (v_val test) ubar ubar + linear_circulation circ (v_val test) q ubar + circ (v_val test) q q.
Proof.
  intros d circ test q ubar H.
  assert (B : circ_bilinear circ).
  { destruct H as [[-> _]|[-> _]]; intros t a b c e; unfold circulation2, circulation3, cross3, curl3, div_perp2, perp2, vplus; cbn; ring. }
  assert (X : rsum d (fun i => (v_val ubar i + v_val q i) * (v_val ubar i + v_val q i))
            = rsum d (fun i => v_val ubar i * v_val ubar i) + 2 * rsum d (fun i => v_val q i * v_val ubar i) + rsum d (fun i => v_val q i * v_val q i)).
  { rewrite <- rsum_scal, <- !rsum_add. apply rsum_ext. intros. ring. }
  unfold vector_invariant, linear_vector_invariant, linear_circulation. rewrite !B. cbn [vplus v_val]. rewrite X. split; [field|ring].
Qed.
Print Assumptions linear_vector_invariant_is_derivative.

(** ** C87: product rules and vector identities *)
(** What the momentum equation needs: (u.grad) u, component by component, and the gradient of the kinetic energy. *)
Definition self_advection d (u : vpoint) (i : nat) : R := rsum d (fun j => v_val u j * v_grad u i j).
Definition grad_ke d (u : vpoint) (j : nat) : R := rsum d (fun i => v_val u i * v_grad u i j).   (* d_j (|u|^2 / 2) *)
Theorem transport_identities :
  forall d test q rho u,
  (* div(q u) = u.grad q + q div u *)
  continuity d test q u = advection d test q u + test * s_val q * v_div d u /\
  (* div(q rho u) = q div(rho u) + rho u.grad q *)
  tracer_conservative d test q rho u = s_val q * continuity d test rho u + s_val rho * advection d test q u /\
  (* (u.grad) u = curl(u) x u + grad(|u|^2/2), in three dimensions *)
  (forall w, circulation3 w u u + rsum 3 (fun j => w j * grad_ke 3 u j) = rsum 3 (fun i => w i * self_advection 3 u i)).
Proof.
  intros d test q rho u. split; [|split].
  - unfold continuity, advection. ring.
  - unfold tracer_conservative, continuity, advection, sprod. cbn [s_val s_grad].
    replace (rsum d (fun i => v_val u i * (s_val q * s_grad rho i + s_val rho * s_grad q i)))
      with (s_val q * rsum d (fun i => v_val u i * s_grad rho i) + s_val rho * rsum d (fun i => v_val u i * s_grad q i)); [ring|].
    rewrite <- !rsum_scal, <- rsum_add. apply rsum_ext. intros. ring.
  - intros w. unfold circulation3, grad_ke, self_advection, cross3, curl3. cbn. ring.
Qed.
Print Assumptions transport_identities.
(** In two dimensions the circulation form has the opposite sign (of vorticity times perp(u)), so that it and
    the kinetic energy do not make up the self-advection; the upwind form (circulation_is_vorticity) has the right sign. *)
Theorem circulation_2d_refuted :
  (forall w q u, circulation2 w q u = - rsum 2 (fun i => w i * ((v_grad q 1 0 - v_grad q 0 1) * perp2 (v_val u) i))) /\
  (forall w u, - circulation2 w u u + rsum 2 (fun j => w j * grad_ke 2 u j) = rsum 2 (fun i => w i * self_advection 2 u i)) /\
  (* solid rotation u = (-y, x) at the point (1, 0), tested with (1, 0): -1 expected, 3 obtained *)
  (exists w u, rsum 2 (fun i => w i * self_advection 2 u i) = -1 /\ circulation2 w u u + rsum 2 (fun j => w j * grad_ke 2 u j) = 3).
Proof.
  split; [|split].
  - intros. unfold circulation2, div_perp2, perp2. cbn. ring.
  - intros. unfold circulation2, div_perp2, perp2, grad_ke, self_advection. cbn. ring.
  - exists (fun i => match i with O => 1 | _ => 0 end),
      {| v_val := fun i => match i with 1%nat => 1 | _ => 0 end; v_grad := fun i j => match i, j with 0%nat, 1%nat => -1 | 1%nat, 0%nat => 1 | _, _ => 0 end |}.
    unfold circulation2, div_perp2, perp2, grad_ke, self_advection. cbn. split; ring.
Qed.
Print Assumptions circulation_2d_refuted.
(** For vector fields advection_form contracts the wrong index: it is the gradient of q applied to u the wrong way round, and for
    self-transport it is the gradient of the kinetic energy.  Scalars are not affected. *)
Theorem vector_advection_refuted :
  (forall d w u, vector_advection d w u u = rsum d (fun j => w j * grad_ke d u j)) /\
  (exists w u, rsum 2 (fun i => w i * self_advection 2 u i) = -1 /\ vector_advection 2 w u u = 1).
Proof.
  split; [reflexivity|].
  exists (fun i => match i with O => 1 | _ => 0 end),
      {| v_val := fun i => match i with 1%nat => 1 | _ => 0 end; v_grad := fun i j => match i, j with 0%nat, 1%nat => -1 | 1%nat, 0%nat => 1 | _, _ => 0 end |}.
  unfold vector_advection, self_advection. cbn. split; ring.
Qed.
Print Assumptions vector_advection_refuted.

(** ** C88: splitting keeps the equation.  [test f], [q f]: test function and field of that name at a point, [vel]: the
    velocities, [k]: the vertical; the residual is the sum of its terms. *)
Section Splitting.
Variables (d : nat) (test : string -> R) (q : string -> spoint) (vel : velocity -> vpoint) (k : nat -> R) (other : nat -> string -> R).
Definition vertical_part (u : vpoint) : vpoint := {| v_val := fun i => k i * rsum d (fun j => v_val u j * k j); v_grad := fun _ _ => 0 |}.
Definition horizontal_part (u : vpoint) : vpoint := {| v_val := fun i => v_val u i - v_val (vertical_part u) i; v_grad := fun _ _ => 0 |}.
Definition form_value (f : tform) (name : string) : R :=
  match f with
  | Conserve v => continuity d (test name) (q name) (vel v)
  | Advect v => advection d (test name) (q name) (vel v)
  | Divergence v => test name * s_val (q name) * v_div d (vel v)
  | AdvectH v => advection d (test name) (q name) (horizontal_part (vel v))
  | AdvectV v => advection d (test name) (q name) (vertical_part (vel v))
  | Other n => other n name
  end.
Definition residual_value (r : list eterm) : R := fold_right (fun t acc => form_value (e_form t) (e_field t) + acc) 0 r.

Lemma residual_cons t r : residual_value (t :: r) = form_value (e_form t) (e_field t) + residual_value r.
Proof. reflexivity. Qed.
Lemma residual_app a b : residual_value (a ++ b)%list = residual_value a + residual_value b.
Proof. induction a as [|t a IH]; [unfold residual_value; cbn; ring|]. rewrite <- app_comm_cons, !residual_cons, IH. ring. Qed.
Lemma residual_filter p r : residual_value r = residual_value (filter p r) + residual_value (filter (fun t => negb (p t)) r).
Proof. induction r as [|t r IH]; [unfold residual_value; cbn; ring|]. cbn [filter]. destruct (p t); cbn [negb]; rewrite !residual_cons, IH; ring. Qed.
Lemma filter_none {A} (p : A -> bool) l : (forall x, In x l -> p x = false) -> filter (fun t => negb (p t)) l = l.
Proof. induction l as [|x l IH]; cbn; intros H; [reflexivity|]. rewrite (H x (or_introl eq_refl)). cbn. f_equal. apply IH. intros. apply H. right. assumption. Qed.
Lemma filter_twice {A} (p : A -> bool) l : filter p (filter p l) = filter p l.
Proof. induction l as [|x l IH]; cbn; [reflexivity|]. destruct (p x) eqn:E; cbn; rewrite ?E, IH; reflexivity. Qed.
Definition sum_of (val : eterm -> R) (ts : list eterm) : R := fold_right (fun t acc => val t + acc) 0 ts.

(** the loop: new terms for every selected term *)
Lemma split_loop_spec pred one (val : eterm -> R) :
  (forall t new, pred t = true -> one t = Ok (Some new) -> (forall x, In x new -> pred x = false) /\ residual_value new = val t) ->
  forall ts residual r', split_loop pred one ts residual = Ok (Some r') ->
  exists added, residual_value added = sum_of val (filter pred ts) /\
    filter (fun t => negb (pred t)) r' = (filter (fun t => negb (pred t)) residual ++ added)%list /\
    (forall x, In x r' -> pred x = true -> existsb pred ts = false /\ In x residual).
Proof.
  intros Hone. induction ts as [|t ts IH]; intros residual r' H; cbn [split_loop] in H.
  - injection H as <-. exists []. rewrite app_nil_r. repeat split; auto.
  - cbn [existsb filter]. destruct (pred t) eqn:E; cbn [orb].
    + destruct (one t) as [[new|]|] eqn:Eo; cbn [bind] in H; try discriminate H. destruct (Hone t new E Eo) as [Hn Hv].
      destruct (IH _ _ H) as (added & H1 & H2 & H3). exists (new ++ added)%list. split; [|split].
      * rewrite residual_app, Hv, H1. reflexivity.
      * rewrite H2. rewrite filter_twice, filter_app, (filter_none pred new Hn), app_assoc. reflexivity.
      * intros x Hx Ex. destruct (H3 x Hx Ex) as [_ Hf]. apply filter_In in Hf. rewrite Ex in Hf. destruct Hf as [_ Hf]. discriminate Hf.
    + destruct (IH _ _ H) as (added & H1 & H2 & H3). exists added. repeat split; try assumption; apply (H3 x); assumption.
Qed.
Lemma split_hv_loop_spec pred one (val : eterm -> R) :
  (forall t new, pred t = true -> one t = Ok (Some new) -> residual_value new = val t) ->
  forall ts residual r', split_hv_loop pred one ts residual = Ok (Some r') ->
  (List.length (filter pred ts) <= 1)%nat ->
  (filter pred ts = [] /\ r' = residual) \/
  (exists t new, filter pred ts = [t] /\ one t = Ok (Some new) /\ r' = (filter (fun t => negb (pred t)) residual ++ new)%list /\ residual_value new = val t).
Proof.
  intros Hone. induction ts as [|t ts IH]; intros residual r' H HL; cbn [split_hv_loop filter] in *.
  - injection H as <-. left. auto.
  - destruct (pred t) eqn:E.
    + destruct (one t) as [[new|]|] eqn:Eo; cbn [bind] in H; try discriminate H.
      destruct (filter pred ts) as [|a l] eqn:F; cbn in HL; [|lia].
      destruct (IH _ _ H ltac:(cbn; lia)) as [[_ ->]|(t' & new' & Hc & _)]; [|discriminate Hc].
      right. exists t, new. repeat split; auto.
    + apply IH; assumption.
Qed.

(** split_continuity_form: the same residual, without conservative terms, all other terms untouched. *)
Theorem split_continuity_keeps_equation :
  forall E r r' v, find_velocity E = Ok v ->
  (forall t, In t r -> is_type Conservative t = true -> e_form t = Conserve v) ->
  split_continuity_form E r = Ok (Some r') ->
  residual_value r' = residual_value r /\
  (forall t, In t r' -> is_type Conservative t = false) /\
  (forall t, In t r -> is_type Conservative t = false -> In t r').
Proof.
  intros E r r' v Hv Hr H. unfold split_continuity_form in H.
  set (val := fun t => continuity d (test (e_field t)) (q (e_field t)) (vel v)).
  destruct (split_loop_spec (is_type Conservative) (split_continuity_term E) val) with (ts := r) (residual := r) (r' := r') as (added & H1 & H2 & H3); [|exact H|].
  - intros t new _ Ht. unfold split_continuity_term in Ht. rewrite Hv in Ht.
    destruct (match eq_fields E with Some names => if mem (e_field t) names then Ok tt else Err ValueError | None => Ok tt end); cbn [bind] in Ht; [|discriminate Ht].
    assert (X : advection d (test (e_field t)) (q (e_field t)) (vel v) + test (e_field t) * s_val (q (e_field t)) * v_div d (vel v) = val t).
    { unfold val. destruct (transport_identities d (test (e_field t)) (q (e_field t)) (q (e_field t)) (vel v)) as [-> _]. reflexivity. }
    destruct (e_lin t); [destruct v; try discriminate Ht|]; injection Ht as <-;
      (split; [intros x [<- | [<- | []]]; reflexivity | rewrite !residual_cons; cbn [e_form e_field form_value]; rewrite <- X; unfold residual_value; cbn; ring]).
  - assert (N : forall t, In t r' -> is_type Conservative t = false).
    { intros t Ht. destruct (is_type Conservative t) eqn:Et; [|reflexivity]. destruct (H3 t Ht Et) as [He Hin].
      assert (existsb (is_type Conservative) r = true) by (apply existsb_exists; exists t; auto). congruence. }
    rewrite (filter_none _ r' N) in H2. split; [|split; [exact N|]].
    + rewrite H2, residual_app, H1, (residual_filter (is_type Conservative) r), Rplus_comm. f_equal.
      clear - Hr. induction r as [|t r IH]; cbn [filter]; [reflexivity|]. destruct (is_type Conservative t) eqn:Et; [|apply IH; intros; apply Hr; [right|]; assumption].
      rewrite residual_cons. cbn [sum_of fold_right]. rewrite (Hr t (or_introl eq_refl) Et). cbn [form_value]. unfold val at 1. f_equal. apply IH. intros; apply Hr; [right|]; assumption.
    + intros t Ht Et. rewrite H2. apply in_or_app. left. apply filter_In. rewrite Et. auto.
Qed.

(** split_hv_advective_form: the advective term of the field becomes its horizontal and vertical parts. *)
Theorem split_hv_keeps_equation :
  forall E field r r' v, find_velocity E = Ok v ->
  (List.length (filter (fun t => is_type Advective t && String.eqb (e_field t) field) r) <= 1)%nat ->
  (forall t, In t r -> is_type Advective t = true -> e_field t = field -> e_form t = Advect v) ->
  split_hv_advective_form E field r = Ok (Some r') ->
  residual_value r' = residual_value r /\
  (forall t, In t r -> (is_type Advective t = false \/ e_field t <> field) -> In t r') /\
  (forall t, In t r' -> is_type Advective t = true -> e_field t = field -> e_horizontal t = negb (e_vertical t)).
Proof.
  intros E field r r' v Hv HL Hr H. unfold split_hv_advective_form in H.
  set (pred := fun t => is_type Advective t && String.eqb (e_field t) field) in *.
  set (val := fun _ : eterm => advection d (test field) (q field) (vel v)).
  assert (X : advection d (test field) (q field) (horizontal_part (vel v)) + advection d (test field) (q field) (vertical_part (vel v)) = advection d (test field) (q field) (vel v)).
  { unfold advection. rewrite <- Rmult_plus_distr_l, <- rsum_add. f_equal. apply rsum_ext. intros. cbn. ring. }
  destruct (split_hv_loop_spec pred (split_hv_term E field) val) with (ts := r) (residual := r) (r' := r') as [[F ->]|(t0 & new & F & Hnew & -> & Hval)]; [| exact H | exact HL | |].
  - intros t new _ Ht. unfold split_hv_term in Ht. rewrite Hv in Ht. cbn [bind] in Ht.
    destruct (match v, eq_fields E with PrognosticU, Some names => if mem field names then Ok tt else Err ValueError | _, _ => Ok tt end); cbn [bind] in Ht; [|discriminate Ht].
    cbv zeta in Ht. destruct (e_lin t); [destruct v; try discriminate Ht|]; injection Ht as <-;
      rewrite !residual_cons; cbn [e_form e_field form_value]; unfold val; rewrite <- X; unfold residual_value; cbn; ring.
  - split; [reflexivity|]. split; [auto|]. intros t Ht Et Ef. exfalso. assert (Hin : In t (filter pred r)). { apply filter_In. split; [exact Ht|]. unfold pred. rewrite Et, Ef, String.eqb_refl. reflexivity. } rewrite F in Hin. exact Hin.
  - assert (Ht0 : In t0 r /\ pred t0 = true) by (apply filter_In; rewrite F; left; reflexivity).
    destruct Ht0 as [Hin0 Hp0]. unfold pred in Hp0. apply andb_prop in Hp0. destruct Hp0 as [Hp1 Hp2]. apply String.eqb_eq in Hp2.
    split; [|split].
    + rewrite residual_app, Hval, (residual_filter pred r), F, Rplus_comm. f_equal. rewrite residual_cons, (Hr t0 Hin0 Hp1 Hp2), Hp2. cbn [form_value]. unfold val, residual_value. cbn. ring.
    + intros t Ht Hne. apply in_or_app. left. apply filter_In. split; [exact Ht|]. unfold pred. destruct Hne as [-> | Hne]; [reflexivity|].
      apply String.eqb_neq in Hne. rewrite Hne, andb_false_r. reflexivity.
    + intros t Ht Et Ef. apply in_app_or in Ht. destruct Ht as [Ht | Ht].
      * apply filter_In in Ht. destruct Ht as [_ Ht]. unfold pred in Ht. rewrite Et, Ef, String.eqb_refl in Ht. discriminate Ht.
      * unfold split_hv_term in Hnew. rewrite Hv in Hnew. cbn [bind] in Hnew.
        destruct (match v, eq_fields E with PrognosticU, Some names => if mem field names then Ok tt else Err ValueError | _, _ => Ok tt end); cbn [bind] in Hnew; [|discriminate Hnew].
        cbv zeta in Hnew. destruct (e_lin t0); [destruct v; try discriminate Hnew|]; injection Hnew as <-; destruct Ht as [<- | [<- | []]]; reflexivity.
Qed.
End Splitting.
Print Assumptions split_continuity_keeps_equation.
Print Assumptions split_hv_keeps_equation.

(** Without a velocity, an equation with a conservative term is refused. *)
Theorem split_continuity_needs_velocity :
  forall E r, find_velocity E = Err ValueError -> (exists t, In t r /\ is_type Conservative t = true) -> split_continuity_form E r = Err ValueError.
Proof.
  intros E r Hv (t & Ht & Et). unfold split_continuity_form. generalize r at 2 as residual.
  induction r as [|a r IH]; [destruct Ht|]. intros residual. cbn [split_loop]. destruct (is_type Conservative a) eqn:Ea.
  - unfold split_continuity_term. rewrite Hv. destruct (eq_fields E) as [l|]; [destruct (mem (e_field a) l)|]; reflexivity.
  - destruct Ht as [-> | Ht]; [congruence|]. apply IH. exact Ht.
Qed.
Print Assumptions split_continuity_needs_velocity.

(** Example: shallow water: a depth term is split, the momentum term is kept. *)
Definition depth_term : eterm := {| e_form := Conserve PrognosticU; e_field := "D"; e_type := Some Conservative; e_lin := None; e_horizontal := false; e_vertical := false; e_labels := ["implicit"%string] |}.
Definition momentum_term : eterm := {| e_form := Other 0; e_field := "u"; e_type := Some VectorInvariant; e_lin := None; e_horizontal := false; e_vertical := false; e_labels := [] |}.
Definition sw_equation : equation := {| eq_fields := Some ["u"%string; "D"%string]; eq_prescribed := [] |}.
Example split_continuity_example :
  find_velocity sw_equation = Ok PrognosticU /\
  exists r', split_continuity_form sw_equation [momentum_term; depth_term] = Ok (Some r') /\ List.length r' = 3%nat.
Proof. split; [reflexivity|]. eexists. split; reflexivity. Qed.
(** The linearisation given to the split terms is not a linear form: for zero trial functions it is u.grad(qbar), not zero.
    [lin_value]: the value of the linearisation for trial velocity u', reference field qbar and velocity u. *)
Definition zero_velocity : vpoint := {| v_val := fun _ => 0; v_grad := fun _ _ => 0 |}.
Definition lin_value d (test : R) (qbar : spoint) (u u' : vpoint) (other : nat -> R) (l : list lform) : R :=
  fold_right (fun f acc => match f with
                           | LConserve => continuity d test qbar u' | LAdvect => advection d test qbar u' | LAffine => advection d test qbar u
                           | LDivergence => s_val qbar * test * v_div d u' | LAdvectH | LAdvectV => 0 | LOther n => other n end + acc) 0 l.
Theorem split_linearisation_refuted :
  forall E t, find_velocity E = Ok PrognosticU -> is_type Conservative t = true -> e_lin t <> None ->
  match eq_fields E with Some names => mem (e_field t) names = true | None => True end ->
  exists a b la lb, split_continuity_form E [t] = Ok (Some [a; b]) /\ e_lin a = Some la /\ e_lin b = Some lb /\
    (forall d test qbar u u' other,
      lin_value d test qbar u u' other (la ++ lb) = continuity d test qbar u' + advection d test qbar u) /\
    (forall d test qbar u other, lin_value d test qbar u zero_velocity other (la ++ lb) = advection d test qbar u).
Proof.
  intros E t Hv Ht Hl Hf. unfold split_continuity_form. cbn [split_loop]. rewrite Ht. unfold split_continuity_term. rewrite Hv.
  assert (X : forall d test qbar u u' other, lin_value d test qbar u u' other ([LAffine; LAdvect] ++ [LDivergence]) = continuity d test qbar u' + advection d test qbar u).
  { intros. unfold lin_value. cbn [app fold_right]. unfold continuity, advection. ring. }
  assert (Y : forall d test qbar u other, lin_value d test qbar u zero_velocity other ([LAffine; LAdvect] ++ [LDivergence]) = advection d test qbar u).
  { intros. rewrite X. unfold continuity, v_div. cbn. rewrite !rsum_0 by (intros; ring). ring. }
  destruct (eq_fields E) as [l|]; [rewrite Hf|]; cbn [bind]; (destruct (e_lin t); [|congruence]);
    cbn [bind split_loop]; cbn [app]; cbn [filter]; rewrite Ht; cbn [negb]; cbn [is_type e_type];
    do 2 eexists; exists [LAffine; LAdvect], [LDivergence]; (split; [reflexivity|]); (split; [reflexivity|]); (split; [reflexivity|]); split; [exact X|exact Y| exact X|exact Y].
Qed.
Print Assumptions split_linearisation_refuted.
(** with a prescribed velocity a linearised term ends in an UnboundLocalError *)
Theorem split_linearisation_prescribed_refuted :
  exists E r, find_velocity E = Ok PrescribedU /\ split_continuity_form E r = Ok None /\ split_hv_advective_form E "D" [{| e_form := Advect PrescribedU; e_field := "D"; e_type := Some Advective; e_lin := Some [LAdvect]; e_horizontal := false; e_vertical := false; e_labels := [] |}] = Ok None.
Proof.
  exists {| eq_fields := None; eq_prescribed := ["u"%string] |},
    [{| e_form := Conserve PrescribedU; e_field := "D"; e_type := Some Conservative; e_lin := Some [LConserve]; e_horizontal := false; e_vertical := false; e_labels := [] |}].
  repeat split.
Qed.
Print Assumptions split_linearisation_prescribed_refuted.
(** labels of the user (implicit, explicit, ...) are lost *)
Theorem split_labels_refuted :
  exists r', split_continuity_form sw_equation [momentum_term; depth_term] = Ok (Some r') /\
    e_labels depth_term = ["implicit"%string] /\ (forall t, In t r' -> e_labels t = []).
Proof. eexists. split; [reflexivity|]. split; [reflexivity|]. intros t [<- | [<- | [<- | []]]]; reflexivity. Qed.
Print Assumptions split_labels_refuted.

(** ** Horizontal and vertical upwinding *)
(** The sum of the two upwind forms is the upwind form of the whole velocity, when every facet is either vertical
    or horizontal (one of the two normal velocities vanishes on it). *)
Definition usum (a b : vfield) : vfield :=
  {| uv := fun k i => uv a k i + uv b k i; ud := fun k => ud a k + ud b k; up := fun f => up a f + up b f; um := fun f => um a f + um b f; ub := fun e => ub a e + ub b e |}.
Theorem split_upwind_is_upwind :
  forall G d i outflow test q uh uv_ h v,
  (forall f, (f < nfp G)%nat -> (up uh f = 0 /\ um uh f = 0) \/ (up uv_ f = 0 /\ um uv_ f = 0)) ->
  (forall b, (b < nbp G)%nat -> ub uh b = 0 \/ ub uv_ b = 0) ->
  split_upwind_advection_form G d i outflow test q uh uv_ = Ok (h, v) ->
  upwind_advection_form G d i outflow test q (usum uh uv_) = Ok (h + v).
Proof.
  intros G d i outflow test q uh uv_ h v Hf Hb H.
  assert (Z0 : un 0 = 0) by (apply un_pos; lra).
  assert (F : upwind_flux G test q (usum uh uv_) = upwind_flux G test q uh + upwind_flux G test q uv_).
  { unfold upwind_flux, dS_. rewrite <- wsum_add. apply wsum_ext. intros f Hl. cbn.
    destruct (Hf f Hl) as [[-> ->] | [-> ->]]; rewrite ?Rplus_0_l, ?Rplus_0_r, Z0; ring. }
  assert (I : interior_flux G test q (usum uh uv_) = interior_flux G test q uh + interior_flux G test q uv_).
  { unfold interior_flux, dS_. rewrite <- wsum_add. apply wsum_ext. intros f Hl. cbn. ring. }
  assert (O : outflow_flux G test q (usum uh uv_) = outflow_flux G test q uh + outflow_flux G test q uv_).
  { unfold outflow_flux, ds_. rewrite <- wsum_add. apply wsum_ext. intros b Hl. cbn.
    destruct (Hb b Hl) as [-> | ->]; rewrite ?Rplus_0_l, ?Rplus_0_r, Z0; ring. }
  assert (D : forall (s : nat -> R) k, dot d (uv (usum uh uv_) k) s = dot d (uv uh k) s + dot d (uv uv_ k) s).
  { intros s k. unfold dot. rewrite <- rsum_add. apply rsum_ext. intros. cbn. ring. }
  assert (A : - dx G (fun k => div_su d test (usum uh uv_) k * sv q k) = - dx G (fun k => div_su d test uh k * sv q k) + - dx G (fun k => div_su d test uv_ k * sv q k)).
  { rewrite <- Ropp_plus_distr. f_equal. unfold dx. rewrite <- wsum_add. apply wsum_ext. intros k _. unfold div_su. rewrite D. cbn. ring. }
  assert (B : dx G (fun k => sv test k * dot d (uv (usum uh uv_) k) (sg q k)) = dx G (fun k => sv test k * dot d (uv uh k) (sg q k)) + dx G (fun k => sv test k * dot d (uv uv_ k) (sg q k))).
  { unfold dx. rewrite <- wsum_add. apply wsum_ext. intros k _. rewrite D. ring. }
  unfold split_upwind_advection_form, upwind_advection_form in *. rewrite A, B. revert H. unfold assemble_form. rewrite F, I, O.
  destruct i, outflow; cbn [is_never andb bind]; intros H; try discriminate H; (injection H as <- <-; f_equal; ring).
Qed.
Print Assumptions split_upwind_is_upwind.
Example split_upwind_example :
  let G := {| ncp := 1; cw := fun _ => 1; nfp := 2; fw := fun _ => 1; nbp := 0; bw := fun _ => 1 |} in
  let uh := {| uv := fun _ i => match i with O => 1 | _ => 0 end; ud := fun _ => 0; up := fun f => match f with O => 1 | _ => 0 end; um := fun f => match f with O => -1 | _ => 0 end; ub := fun _ => 0 |} in
  let uv_ := {| uv := fun _ i => match i with O => 0 | _ => 2 end; ud := fun _ => 0; up := fun f => match f with O => 0 | _ => 2 end; um := fun f => match f with O => 0 | _ => -2 end; ub := fun _ => 0 |} in
  forall f, (f < nfp G)%nat -> (up uh f = 0 /\ um uh f = 0) \/ (up uv_ f = 0 /\ um uv_ f = 0).
Proof. intros G uh uv_ [|[|f]] Hf; cbn in *; try lia; [right|left]; split; reflexivity. Qed.
(** On sloping facets a constant field is not kept: the flow psi = x(1-x)z(1+x-z) below the lid z = 1+x, at rest
    above; u.n is continuous (zero), the divergence theorem holds for both parts, and yet the cell below loses 1/4:
    the data are the integrals over the cell and over the lid of the horizontal and of the vertical part of u. *)
Theorem split_upwind_keeps_constants_refuted :
  exists G test uh uv_ h v,
    (forall f, (f < nfp G)%nat -> um (usum uh uv_) f = - up (usum uh uv_) f) /\ no_normal_flow G uh /\ no_normal_flow G uv_ /\
    divergence_theorem G 2 test uh /\ divergence_theorem G 2 test uv_ /\
    split_upwind_advection_form G 2 Once false test (constant 1) uh uv_ = Ok (h, v) /\ h + v = 1/4 /\
    upwind_advection_form G 2 Once false test (constant 1) (usum uh uv_) = Ok 0.
Proof.
  set (G := {| ncp := 2; cw := fun _ => 1; nfp := 1; fw := fun _ => 1; nbp := 0; bw := fun _ => 1 |}).
  set (test := dg0 {| cell_of := fun k => k; plus_of := fun _ => 0%nat; minus_of := fun _ => 1%nat; bdry_of := fun b => b |} (indicator 0)).
  set (part := fun a : R => {| uv := fun _ _ => 0; ud := fun k => match k with O => a | _ => 0 end; up := fun _ => a; um := fun _ => 0; ub := fun _ => 0 |}).
  exists G, test, (part (-(1/4))), (part (1/4)), (1/4), 0.
  assert (Un : un (-(1/4)) = 0) by (unfold un; rewrite Rabs_Ropp, Rabs_pos_eq; lra).
  assert (Up : un (1/4) = 1/4) by (apply un_pos; lra).
  assert (U0 : un 0 = 0) by (apply un_pos; lra).
  split; [|split; [|split; [|split; [|split; [|split; [|split]]]]]].
  - intros f _. cbn. ring.
  - intros b Hb. reflexivity.
  - intros b Hb. reflexivity.
  - unfold divergence_theorem, dx, dS_, ds_, div_su, dot. cbn. ring.
  - unfold divergence_theorem, dx, dS_, ds_, div_su, dot. cbn. ring.
  - unfold split_upwind_advection_form, upwind_advection_form, assemble_form, upwind_flux, dx, dS_, div_su, dot. cbn -[un Rdiv]. rewrite Un, Up, U0.
    f_equal. f_equal; field.
  - lra.
  - unfold upwind_advection_form, assemble_form, upwind_flux, dx, dS_, div_su, dot. cbn -[un Rdiv].
    replace (- (1/4) + 1/4) with 0 by ring. replace (0 + 0) with 0 by ring. rewrite U0. f_equal. ring.
Qed.
Print Assumptions split_upwind_keeps_constants_refuted.

(** ** C89: diffusion *)
Definition constant_d (a : R) : dfield := {| d_grad := fun _ _ => 0; d_plus := fun _ => a; d_minus := fun _ => a; d_gplus := fun _ _ => 0; d_gminus := fun _ _ => 0 |}.
Definition opposite_normals (G : geometry) (np nm : nat -> nat -> R) : Prop := forall f i, (f < nfp G)%nat -> nm f i = - np f i.
Lemma dot_comm d a b : dot d a b = dot d b a. Proof. unfold dot. apply rsum_ext. intros. ring. Qed.
Lemma dot_zero_l d a b : (forall i, (i < d)%nat -> a i = 0) -> dot d a b = 0.
Proof. intros H. unfold dot. apply rsum_0. intros i Hi. rewrite (H i Hi). ring. Qed.
Theorem diffusion_symmetric :
  forall G d np nm kappa mu s q, ip_diffusion G d np nm kappa mu s q = ip_diffusion G d np nm kappa mu q s /\
  cg_diffusion G d kappa s q = cg_diffusion G d kappa q s.
Proof.
  intros G d np nm kappa mu s q. split.
  - unfold ip_diffusion. f_equal.
    + unfold dx. apply wsum_ext. intros k _. unfold dot. apply rsum_ext. intros. ring.
    + unfold dS_. apply wsum_ext. intros f _. rewrite (dot_comm d (avg_grad kappa q f)), (dot_comm d (avg_grad kappa s f)).
      replace (dot d (jump_n np nm s f) (fun i => jump_n np nm q f i * kappa)) with (dot d (jump_n np nm q f) (fun i => jump_n np nm s f i * kappa)); [ring|].
      unfold dot. apply rsum_ext. intros. ring.
  - unfold cg_diffusion, dx. apply wsum_ext. intros k _. rewrite dot_comm. reflexivity.
Qed.
Print Assumptions diffusion_symmetric.
(** The total is conserved and constants are kept, where the two normals of every facet are opposite (flat facets). *)
Theorem diffusion_conserves :
  forall G d np nm kappa mu a q, opposite_normals G np nm ->
  ip_diffusion G d np nm kappa mu (constant_d a) q = 0 /\ ip_diffusion G d np nm kappa mu q (constant_d a) = 0 /\
  cg_diffusion G d kappa (constant_d a) q = 0 /\ cg_diffusion G d kappa q (constant_d a) = 0.
Proof.
  intros G d np nm kappa mu a q Hn.
  assert (H : forall q, ip_diffusion G d np nm kappa mu (constant_d a) q = 0).
  { intros p. unfold ip_diffusion. unfold dx. rewrite wsum_0 by (intros; apply dot_zero_l; reflexivity).
    unfold dS_. rewrite wsum_0; [ring|]. intros f Hf.
    rewrite (dot_comm d (jump_n np nm p f) (avg_grad _ _ _)), (dot_comm d (avg_grad _ _ _) (jump_n _ _ (constant_d a) f)), (dot_comm d (jump_n np nm p f)).
    rewrite !dot_zero_l; [ring| | |]; intros i _; unfold avg_grad, jump_n; cbn; rewrite ?(Hn f i Hf); ring. }
  assert (C : forall q, cg_diffusion G d kappa (constant_d a) q = 0).
  { intros p. unfold cg_diffusion, dx. apply wsum_0. intros. rewrite dot_zero_l by reflexivity. ring. }
  split; [apply H|]. split; [rewrite (proj1 (diffusion_symmetric G d np nm kappa mu q (constant_d a))); apply H|]. split; [apply C|].
  rewrite (proj2 (diffusion_symmetric G d np nm kappa mu q (constant_d a))). apply C.
Qed.
Print Assumptions diffusion_conserves.
(** On a curved surface the normals of the two cells at a facet are not opposite, and the total is not conserved:
    two faces of a cube, say, with normals (1,0,0) and (0,0,1) to their common edge. *)
Theorem diffusion_on_manifold_refuted :
  exists G np nm q, ip_diffusion G 3 np nm 1 1 (constant_d 1) q = 1 /\ ip_diffusion G 3 np nm 1 1 (constant_d 1) (constant_d 1) = 2.
Proof.
  exists {| ncp := 0; cw := fun _ => 1; nfp := 1; fw := fun _ => 1; nbp := 0; bw := fun _ => 1 |},
    (fun _ i => match i with O => 1 | _ => 0 end), (fun _ i => match i with 2%nat => 1 | _ => 0 end),
    {| d_grad := fun _ _ => 0; d_plus := fun _ => 1; d_minus := fun _ => 0; d_gplus := fun _ _ => 0; d_gminus := fun _ _ => 0 |}.
  unfold ip_diffusion, dx, dS_, dot, avg_grad, jump_n, constant_d. cbn. split; field.
Qed.
Print Assumptions diffusion_on_manifold_refuted.

(** Dissipation: with a penalty at least the constant of the inverse trace inequality the form is never negative, so
    the L2 norm does not grow; cellwise constants need no more than mu >= 0. *)
Definition trace_inequality (G : geometry) (d : nat) (C : R) (q : dfield) : Prop :=
  dS_ G (fun f => dot d (avg_grad 1 q f) (avg_grad 1 q f)) <= C * dx G (fun k => dot d (d_grad q k) (d_grad q k)).
Lemma dot_self d a : 0 <= dot d a a.
Proof. unfold dot. induction d as [|d IH]; cbn; [lra|]. pose proof (Rle_0_sqr (a d)). unfold Rsqr in H. lra. Qed.
Lemma young d a b m : 0 < m -> 2 * dot d a b <= m * dot d a a + 1 / m * dot d b b.
Proof.
  intros Hm. pose proof (dot_self d (fun i => m * a i - b i)) as H.
  assert (E : dot d (fun i => m * a i - b i) (fun i => m * a i - b i) = m * m * dot d a a - 2 * m * dot d a b + dot d b b).
  { unfold dot. clear H. induction d as [|d' IH]; cbn; [ring|]. rewrite IH. ring. }
  rewrite E in H. apply Rmult_le_reg_l with m; [exact Hm|].
  replace (m * (m * dot d a a + 1 / m * dot d b b)) with (m * m * dot d a a + dot d b b) by (field; lra). nra.
Qed.
Theorem diffusion_dissipates :
  forall G d np nm kappa mu C q, 0 <= kappa -> 0 < mu -> C <= mu ->
  (forall f, (f < nfp G)%nat -> 0 <= fw G f) -> (forall k, (k < ncp G)%nat -> 0 <= cw G k) ->
  trace_inequality G d C q ->
  0 <= ip_diffusion G d np nm kappa mu q q /\ 0 <= cg_diffusion G d kappa q q.
Proof.
  intros G d np nm kappa mu C q Hk Hm HC Hw Hc HT.
  set (A := dx G (fun k => dot d (d_grad q k) (d_grad q k))).
  assert (HA : 0 <= A) by (unfold A, dx; apply wsum_nonneg; intros; split; [auto|apply dot_self]).
  set (J := dS_ G (fun f => dot d (jump_n np nm q f) (jump_n np nm q f))).
  set (B := dS_ G (fun f => dot d (avg_grad 1 q f) (avg_grad 1 q f))).
  set (X := dS_ G (fun f => dot d (jump_n np nm q f) (avg_grad 1 q f))).
  assert (E : ip_diffusion G d np nm kappa mu q q = kappa * (A - 2 * X + mu * J)).
  { unfold ip_diffusion.
    assert (E1 : dx G (fun k => dot d (d_grad q k) (fun i => d_grad q k i * kappa)) = kappa * A).
    { unfold A, dx. rewrite <- wsum_scal. apply wsum_ext. intros k _. rewrite <- dot_scal_r. unfold dot. apply rsum_ext. intros. ring. }
    assert (E2 : forall f, dot d (jump_n np nm q f) (avg_grad kappa q f) = kappa * dot d (jump_n np nm q f) (avg_grad 1 q f)).
    { intros f. rewrite <- dot_scal_r. unfold dot, avg_grad. apply rsum_ext. intros. ring. }
    assert (E3 : dS_ G (fun f => - dot d (jump_n np nm q f) (avg_grad kappa q f) - dot d (avg_grad kappa q f) (jump_n np nm q f) + mu * dot d (jump_n np nm q f) (fun i => jump_n np nm q f i * kappa))
               = kappa * (- 2 * X + mu * J)).
    { unfold X, J, dS_. rewrite <- !wsum_scal. rewrite <- wsum_add, <- wsum_scal. apply wsum_ext. intros f _. rewrite (dot_comm d (avg_grad kappa q f)), E2.
      replace (dot d (jump_n np nm q f) (fun i => jump_n np nm q f i * kappa)) with (kappa * dot d (jump_n np nm q f) (jump_n np nm q f)); [ring|].
      rewrite <- dot_scal_r. unfold dot. apply rsum_ext. intros. ring. }
    rewrite E1, E3. ring. }
  assert (Y : 2 * X <= mu * J + 1 / mu * B).
  { unfold X, J, B, dS_. rewrite <- !wsum_scal, <- wsum_add. apply wsum_le. intros f Hf. split; [auto|]. apply young. exact Hm. }
  assert (HB : B <= mu * A) by (unfold trace_inequality in HT; fold A B in HT; nra).
  assert (1 / mu * B <= A).
  { apply Rmult_le_reg_l with mu; [exact Hm|]. replace (mu * (1 / mu * B)) with B by (field; lra). exact HB. }
  split.
  - rewrite E. apply Rmult_le_pos; [exact Hk|]. lra.
  - unfold cg_diffusion. replace (dx G (fun k => kappa * dot d (d_grad q k) (d_grad q k))) with (kappa * A) by (unfold A, dx; rewrite wsum_scal; reflexivity). apply Rmult_le_pos; assumption.
Qed.
Print Assumptions diffusion_dissipates.
(** Two cells of width one with the same slope and a jump: the hypothesis holds with C = 1/2, and with a smaller
    penalty the form is negative, so such a field grows. *)
Definition two_cells : geometry := {| ncp := 2; cw := fun _ => 1; nfp := 1; fw := fun _ => 1; nbp := 0; bw := fun _ => 1 |}.
Definition saw (b0 b1 J : R) : dfield := {| d_grad := fun k _ => match k with O => b0 | _ => b1 end; d_plus := fun _ => J; d_minus := fun _ => 0; d_gplus := fun _ _ => b0; d_gminus := fun _ _ => b1 |}.
Example diffusion_example : forall b0 b1 J, trace_inequality two_cells 1 (1/2) (saw b0 b1 J).
Proof. intros. unfold trace_inequality, dS_, dx, dot, avg_grad. cbn. pose proof (Rle_0_sqr (b0 - b1)). unfold Rsqr in H. nra. Qed.
Theorem small_penalty_refuted :
  forall mu, mu < 1/2 -> exists q, ip_diffusion two_cells 1 (fun _ _ => 1) (fun _ _ => -1) 1 mu q q < 0.
Proof.
  intros mu H. exists (saw 1 1 2). unfold ip_diffusion, dx, dS_, dot, avg_grad, jump_n. cbn. nra.
Qed.
Print Assumptions small_penalty_refuted.
