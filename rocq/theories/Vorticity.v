(** Model of VorticityTransport (gusto/spatial_methods/augmentation.py l.63-253) on two-dimensional meshes, and of the calls
    the time discretisations make to it.  Planar vector fields are pairs of scalar fields (Transport.v); perp(a) = (-a_1, a_0).
    In three dimensions the constructor raises: domain.perp (l.216-217) is only defined in two (domain.py l.110-132). *)
From Coq Require Import Reals Lia.
From Verif Require Import Base Vec Transport.
Open Scope R_scope.

Section Forms.
Variable G : geometry.
Variables np nm nb : nat -> nat -> R.     (* n('+'), n('-') and the outward normal on the boundary *)
(** Auxiliary, nothing in the code by itself. *)
Definition pv (a : planar) (k : nat) (i : nat) : R := match i with 0%nat => sv (fst a) k | _ => sv (snd a) k end.
(** Auxiliary, nothing in the code by itself. *)
Definition pgrad (a : planar) (k : nat) (i j : nat) : R := match i with 0%nat => sg (fst a) k j | _ => sg (snd a) k j end.  (* d a_i / d x_j *)
(** Auxiliary, nothing in the code by itself. *)
Definition pplus (a : planar) (f : nat) (i : nat) : R := match i with 0%nat => sp (fst a) f | _ => sp (snd a) f end.
(** Auxiliary, nothing in the code by itself. *)
Definition pminus (a : planar) (f : nat) (i : nat) : R := match i with 0%nat => sm (fst a) f | _ => sm (snd a) f end.
(** Auxiliary, nothing in the code by itself. *)
Definition pbdry (a : planar) (b : nat) (i : nat) : R := match i with 0%nat => sb (fst a) b | _ => sb (snd a) b end.
(** Auxiliary, nothing in the code by itself. *)
Definition dot2 (a b : nat -> R) : R := a 0%nat * b 0%nat + a 1%nat * b 1%nat.
(** Auxiliary, nothing in the code by itself. *)
Definition perp2d (a : nat -> R) (i : nat) : R := match i with 0%nat => - a 1%nat | _ => a 0%nat end.
(** Auxiliary, nothing in the code by itself. *)
Definition pdiv (a : planar) (k : nat) : R := pgrad a k 0 0 + pgrad a k 1 1.
(** Auxiliary, nothing in the code by itself. *)
Definition psub (a b : planar) : planar := (sadd (fst a) (sopp (fst b)), sadd (snd a) (sopp (snd b))).

(** a test function for the vorticity: the function and perp(grad(function)) *)
(** The test functions of l.96-116. *)
Record vort_test := { zt : sfield; zt_rot : planar }.
(** l.96-116. *)
Record mixed_state := { mF : planar; mZ : sfield }.
(** l.96-116. *)
Record mixed_test := { tF : planar; tZ : vort_test }.
(** l.122 *)
Definition mix_test (t : mixed_test) : planar := psub (tF t) (zt_rot (tZ t)).

(** l.118-119: sign_u, upw *)
Definition sign_p (u : planar) (f : nat) : R := 1/2 * (sign (dot2 (pplus u f) (np f)) + 1).
(** l.118-119. *)
Definition sign_m (u : planar) (f : nat) : R := 1/2 * (sign (dot2 (pminus u f) (nm f)) + 1).
(** l.118-119. *)
Definition upw (u q : planar) (f : nat) (i : nat) : R := sign_p u f * pplus q f i + sign_m u f * pminus q f i.
(** l.143: dot(u, transpose(nabla_grad(F))), component j: u_i d_j F_i *)
Definition u_dot_nabla_F (u F : planar) (k : nat) (j : nat) : R := pv u k 0 * pgrad F k 0 j + pv u k 1 * pgrad F k 1 j.
(** div(outer(a, m)), component i: d_j (a_i m_j) *)
(** Auxiliary, nothing in the code by itself. *)
Definition div_outer (a m : planar) (k : nat) (i : nat) : R := pv m k 0 * pgrad a k i 0 + pv m k 1 * pgrad a k i 1 + pv a k i * pdiv m k.

(** l.131-138 *)
Definition invariant_form (u : planar) (X : mixed_state) (t : mixed_test) : R :=
  let m := mix_test t in
  dx G (fun k => dot2 (pv m k) (fun i => sv (mZ X) k * perp2d (pv u k) i))
  + ds_ G (fun b => sb (zt (tZ t)) b * sb (mZ X) b * dot2 (nb b) (pbdry u b))
  - 1/2 * dx G (fun k => pdiv m k * dot2 (pv u k) (pv (mF X) k))
  + 1/2 * ds_ G (fun b => dot2 (pbdry m b) (nb b) * dot2 (pbdry u b) (pbdry (mF X) b)).
(** l.144-152; uF_b: the boundary values of u_dot_nabla_F *)
Definition commutator_form (u : planar) (uF_b : nat -> nat -> R) (X : mixed_state) (t : mixed_test) : R :=
  let m := mix_test t in let F := mF X in
  - ds_ G (fun b => dot2 (nb b) (fun i => sb (zt (tZ t)) b * perp2d (uF_b b) i))
  - 1/2 * dx G (fun k => dot2 (pv F k) (div_outer u m k))
  + 1/2 * dS_ G (fun f => dot2 (pplus m f) (np f) * dot2 (fun i => pplus u f i - pminus u f i) (upw u F f))
  + 1/2 * dx G (fun k => dot2 (pv u k) (div_outer F m k))
  - 1/2 * dS_ G (fun f => dot2 (pplus m f) (np f) * dot2 (fun i => pplus F f i - pminus F f i) (upw u u f)).
(** l.157-182 in two dimensions; tau: the values of tau.  divperp(Z perp(u)) = div(Z u); rot_uF: the values of divperp(u_dot_nabla_F) *)
Definition div_Zu (u : planar) (Z : sfield) (k : nat) : R := sv Z k * pdiv u k + pv u k 0 * sg Z k 0 + pv u k 1 * sg Z k 1.
(** l.157-195. *)
Definition supg_mass (tau : nat -> R) (dt : R) (u : planar) (X : mixed_state) (t : mixed_test) : R :=
  dx G (fun k => dot2 (pv (mix_test t) k) (fun i => tau k * sv (mZ X) k * perp2d (pv u k) i / dt)).
(** l.157-195. *)
Definition supg_transport (tau : nat -> R) (u : planar) (rot_uF : option (nat -> R)) (X : mixed_state) (t : mixed_test) : R :=
  dx G (fun k => dot2 (pv (mix_test t) k) (fun i => tau k * perp2d (pv u k) i * div_Zu u (mZ X) k))
  + match rot_uF with None => 0 | Some r => dx G (fun k => dot2 (pv (mix_test t) k) (fun i => tau k * perp2d (pv u k) i * r k)) end.
(** l.160-169: tau = dt/2 / (1 + |u| dt / mean_dx) *)
Definition supg_tau (dt mean_dx : R) (u : planar) (k : nat) : R := 5/10 * dt / (1 + sqrt (dot2 (pv u k) (pv u k)) * dt / mean_dx).

(** The arguments of l.82-84. *)
Record vt_options := { commute : bool; use_supg : bool; vt_dt : R; vt_mean_dx : R }.
(** l.128, 174 *)
Definition time_form (o : vt_options) (u : planar) (X : mixed_state) (t : mixed_test) : R :=
  dx G (fun k => dot2 (pv (mF X) k) (pv (tF t) k)) + dx G (fun k => sv (mZ X) k * sv (zt (tZ t)) k)
  - (if use_supg o then supg_mass (supg_tau (vt_dt o) (vt_mean_dx o) u) (vt_dt o) u X t else 0).
(** l.131-182 *)
Definition transport_form (o : vt_options) (u : planar) (uF_b : nat -> nat -> R) (rot_uF : nat -> R) (X : mixed_state) (t : mixed_test) : R :=
  invariant_form u X t + (if commute o then commutator_form u uF_b X t else 0)
  - (if use_supg o then supg_transport (supg_tau (vt_dt o) (vt_mean_dx o) u) u (if commute o then Some rot_uF else None) X t else 0).
(** l.214-222: the vorticity Z_in of F; the equation for all test functions *)
Definition vorticity_residual (F : planar) (Z : sfield) (z : vort_test) : R :=
  dx G (fun k => sv Z k * sv (zt z) k) + dx G (fun k => dot2 (pv (zt_rot z) k) (pv F k))
  + ds_ G (fun b => sb (zt z) b * dot2 (nb b) (perp2d (pbdry F b))).
End Forms.

(** ** The calls: pre_apply (l.224-231), post_apply (l.233-240), update (l.242-253) *)
Section Calls.
Context {Vel Vort : Type}.
Variable vorticity_of : Vel -> Vort.      (* self.solver *)
Variable cycle : Vel * Vort -> Vel * Vort.    (* one apply_cycle of the time discretisation, without the update *)
(** l.198-253. *)
Record aug_state := { a_in : Vel * Vort; a_out : Vel * Vort }.
(** l.224-231. *)
Definition pre_apply (x : Vel) (a : aug_state) : aug_state := {| a_in := (x, snd (a_in a)); a_out := a_out a |}.
(** l.233-240. *)
Definition post_apply (a : aug_state) : Vel := fst (a_out a).
(** update(x_in_mixed) writes self.x_in, not its argument *)
(** l.242-252. *)
Definition update (x_mixed : Vel * Vort) (a : aug_state) : aug_state := {| a_in := (fst x_mixed, vorticity_of (fst x_mixed)); a_out := a_out a |}.
(** time_discretisation.py ExplicitTimeDiscretisation.apply. *)
Fixpoint cycles (n : nat) (x : Vel * Vort) : Vel * Vort := match n with O => x | S n => cycles n (cycle x) end.
(** ExplicitRungeKutta: apply (time_discretisation.py l.592-607) copies the input to x0, then each apply_cycle
    (explicit_runge_kutta.py l.434-456) updates the augmentation and advances x0 *)
Fixpoint erk_cycles (n : nat) (x0 : Vel * Vort) (a : aug_state) : (Vel * Vort) * aug_state :=
  match n with O => (x0, a) | S n => let a := update x0 a in erk_cycles n (cycle x0) a end.
(** Which schemes call augmentation.update. *)
Inductive scheme := ERK | Theta | Other (* BackwardEuler, ImplicitRungeKutta, IMEX: no call of update *).
(** wrapper_apply (time_discretisation.py l.39-45) around apply: ERK; ThetaMethod (l.856-874), BackwardEuler (l.717-732) *)
Definition apply_augmented (sch : scheme) (ncycles : nat) (x : Vel) (a : aug_state) : Vel * aug_state :=
  let a := pre_apply x a in
  let '(out, a) :=
    match sch with
    | ERK => erk_cycles ncycles (a_in a) a
    | Theta => let a := update (a_in a) a in (cycles ncycles (a_in a), a)
    | Other => (cycles ncycles (a_in a), a)
    end in
  let a := {| a_in := a_in a; a_out := out |} in
  (post_apply a, a).
(** a run: the output of each step is the input of the next *)
(** The time loop, timestepping/timestepper.py l.236-257, with wrapper_apply. *)
Fixpoint run (sch : scheme) (ncycles : nat) (n : nat) (x : Vel) (a : aug_state) : Vel * aug_state :=
  match n with O => (x, a) | S n => let (x, a) := apply_augmented sch ncycles x a in run sch ncycles n x a end.
End Calls.
