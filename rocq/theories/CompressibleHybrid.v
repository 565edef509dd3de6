(** Model of CompressibleHybridisedSCPC (gusto/solvers/preconditioners.py l.422-790): the hybridised system for broken velocity, density and
    traces with theta eliminated, the recovery of the velocity and the reconstruction of theta.  Fields are given at quadrature points, as in Equations.v.
    Simplifications: dx and dx(degree=...) are the same quadrature rule; all linear systems are solved exactly; averaging the broken velocity
    returns it unchanged if it is continuous (proved for the kernels in HybridPCProps.v); the Riesz map is the identity on the right-hand side. *)
From Verif Require Import Base Vec Transport CommonForms Equations Thermo Compressible.
From Coq Require Import String.
Open Scope R_scope.

(** a broken velocity u, with k.u as a scalar and V(u) = k (k.u) (l.578-579) *)
Record broken := { bu : velocity_field; bz : sfield; bv : velocity_field }.
(** a function on the facets: interior, exterior *)
(** Auxiliary, nothing in the code by itself. *)
Record trace := { t_int : nat -> R; t_ext : nat -> R }.
(** Auxiliary, nothing in the code by itself. *)
Definition sscale (c : R) (a : sfield) : sfield :=
  {| sv := fun k => c * sv a k; sg := fun k i => c * sg a k i; sp := fun f => c * sp a f; sm := fun f => c * sm a f; sb := fun f => c * sb a f |}.

(** l.597-609: moisture of the reference profiles; the tracers of the equations that are not water are left out, water that is not a mixing ratio is refused *)
Fixpoint hybrid_moisture (ts : list ctracer) (Xr : fields) : res sfield :=
  match ts with
  | [] => Ok (constant 0)
  | t :: ts => if tr_H2O t then
                 if tr_mixing t then match hybrid_moisture ts Xr with Ok m => Ok (sadd (tr_of t Xr) m) | Err e => Err e end
                 else Err NotImplementedError
               else hybrid_moisture ts Xr
  end.

Section Hybrid.
Variables (G : geometry) (d : nat) (kvec : nat -> nat -> R).
Variables (vertical : nat -> bool) (* interior facets of dS_v *) (lateral : nat -> bool) (* exterior facets of ds_v *).
Variable P : cparams.
Notation DX := (dx G).
(** integral of a trace test function times values on the facets: dl('+')*f*(dS_v + dS_h) + dl*f*(ds_v + ds_tb) *)
(** dl times values on all facets, l.616-660. *)
Definition on_facets (dl : trace) (fi fe : nat -> R) : R := dS_ G (fun f => t_int dl f * fi f) + ds_ G (fun b => t_ext dl b * fe b).
(** l.616-637: projection of the average of a field into the trace space *)
Definition trace_average (Vt : trace -> Prop) (s : sfield) (a : trace) : Prop :=
  Vt a /\ forall dl, Vt dl -> on_facets dl (t_int a) (t_ext a) = on_facets dl (avg_ s) (sb s).

(** relaxation parameters times dt (l.492-494), thermal reference gradient k.grad(thetabar) as a field, sponge, rotation *)
Record hybrid_options := { b_u : R; b_t : R; b_r : R; h_dt : R; h_hydrostatic : bool; h_mu : option (nat -> R); h_Om : option R }.
Variables (o : hybrid_options) (Xr : fields) (gz mr : sfield) (rho_avg exner_avg : trace) (xin : fields).
(** Auxiliary, nothing in the code by itself. *)
Definition divf (s : sfield) (w : velocity_field) (k : nat) : R := sv s k * v_div d (u_at w k) + vdot d (v_val (u_at w k)) (sg s k).
(** l.566: theta = -dot(k, u)*dot(k, grad(thetabar))*beta_t + theta_in *)
Definition eliminated_theta (u : broken) : sfield := sadd (sscale (- b_t o) (product (bz u) gz)) (f_b xin).
(** l.573: exner = exnerbar_theta*theta + exnerbar_rho*rho, with the unvirtual thetabar *)
Definition exner_prime (u : broken) (rho : sfield) (k : nat) : R :=
  dexner_dtheta P (sv (f_D Xr) k) (sv (f_b Xr) k) * sv (eliminated_theta u) k + dexner_drho P (sv (f_D Xr) k) (sv (f_b Xr) k) * sv rho k.
(** l.544. *)
Definition exnerbar : sfield := exner_field P Xr.
(** l.622-660 *)
Definition hybrid_eqn (u : broken) (rho : sfield) (l0 : trace) (w : broken) (phi : sfield) (dl : trace) : R :=
  let theta_w := quotient1 (eliminated_theta u) mr in
  let thetabar_w := quotient1 (f_b Xr) mr in
  let jump_n := fun s v f => sp s f * u_np v f + sm s f * u_nm v f in
  DX (fun k => vdot d (v_val (u_at (bu w) k)) (fun i => (if h_hydrostatic o then v_val (u_at (bu u) k) i - v_val (u_at (bv u) k) i else v_val (u_at (bu u) k) i) - v_val (u_at (f_u xin) k) i))
  - b_u o * cp P * DX (fun k => divf theta_w (bv w) k * sv exnerbar k)
  + b_u o * cp P * dS_ G (fun f => if vertical f then 0 else jump_n theta_w (bv w) f * t_int exner_avg f)
  + b_u o * cp P * ds_ G (fun b => if lateral b then 0 else sb theta_w b * u_nb (bv w) b * t_ext exner_avg b)
  - b_u o * cp P * DX (fun k => divf thetabar_w (bu w) k * exner_prime u rho k)
  + b_u o * cp P * on_facets l0 (jump_n thetabar_w (bu w)) (fun b => sb thetabar_w b * u_nb (bu w) b)
  + DX (fun k => sv phi k * (sv rho k - sv (f_D xin) k) - b_r o * vdot d (sg phi k) (v_val (u_at (bu u) k)) * sv (f_D Xr) k)
  + b_r o * on_facets rho_avg (jump_n phi (bu u)) (fun b => sb phi b * u_nb (bu u) b)
  + on_facets dl (fun f => u_np (bu u) f + u_nm (bu u) f) (u_nb (bu u))
  + match h_mu o with Some mu => h_dt o * DX (fun k => mu k * vdot d (v_val (u_at (bu w) k)) (kvec k) * vdot d (v_val (u_at (bu u) k)) (kvec k)) | None => 0 end
  + match h_Om o with Some Om => b_u o * DX (fun k => vdot d (v_val (u_at (bu w) k)) (cross_omega Om (v_val (u_at (bu u) k)))) | None => 0 end.
(** l.665-679: the hybridised problem *)
Definition hybrid_solution (Vb : broken -> Prop) (Vr : sfield -> Prop) (Vt : trace -> Prop) (u : broken) (rho : sfield) (l0 : trace) : Prop :=
  Vb u /\ Vr rho /\ Vt l0 /\ forall w phi dl, Vb w -> Vr phi -> Vt dl -> hybrid_eqn u rho l0 w phi dl = 0.
(** l.694-706: reconstruction of theta, from the recovered velocity *)
Definition theta_backsub (Vth : sfield -> Prop) (u : broken) (theta : sfield) : Prop :=
  Vth theta /\ forall gamma, Vth gamma -> DX (fun k => sv gamma k * (sv theta k - sv (f_b xin) k + sv (bz u) k * sv gz k * b_t o)) = 0.
(** l.738-757 apply: what is copied to the output.  The components of y after the third one are never assigned and remain zero.
    u_hdiv: averaged and with boundary values set to zero; equal to u if u is continuous with zero normal component *)
Definition continuous_u (u : velocity_field) : Prop := (forall f, (f < nfp G)%nat -> u_np u f + u_nm u f = 0) /\ (forall b, (b < nbp G)%nat -> u_nb u b = 0).
(** apply, l.719-777. *)
Definition hybrid_apply (Vb : broken -> Prop) (Vr : sfield -> Prop) (Vt : trace -> Prop) (Vth : sfield -> Prop) (u_hdiv : broken) (y : fields) : Prop :=
  exists u l0, hybrid_solution Vb Vr Vt u (f_D y) l0 /\ (continuous_u (bu u) -> u_hdiv = u) /\ f_u y = bu u_hdiv /\
  theta_backsub Vth u_hdiv (f_b y) /\ f_q y = constant 0.
End Hybrid.

(** ** The linear system of the quasi-Newton solver for the dry compressible Euler equations (linearisations of the terms of
    compressible_euler_equations.py l.118-289), around a state at rest: momentum, density and theta rows *)
Section LinearEuler.
Variables (G : geometry) (d : nat) (kvec : nat -> nat -> R) (vertical : nat -> bool) (P : cparams).
Notation DX := (dx G).
(** the Gateaux derivative of the pressure gradient term (l.193-195) at Xr in direction x *)
Definition linear_pressure (Xr x : fields) (w : velocity_field) : R :=
  let ex' := {| sv := fun k => dexner_drho P (sv (f_D Xr) k) (sv (f_b Xr) k) * sv (f_D x) k + dexner_dtheta P (sv (f_D Xr) k) (sv (f_b Xr) k) * sv (f_b x) k;
                sg := fun _ _ => 0;   (* not used *)
                sp := fun f => dexner_drho P (sp (f_D Xr) f) (sp (f_b Xr) f) * sp (f_D x) f + dexner_dtheta P (sp (f_D Xr) f) (sp (f_b Xr) f) * sp (f_b x) f;
                sm := fun f => dexner_drho P (sm (f_D Xr) f) (sm (f_b Xr) f) * sm (f_D x) f + dexner_dtheta P (sm (f_D Xr) f) (sm (f_b Xr) f) * sm (f_b x) f;
                sb := fun _ => 0 |} in
  cp P * (- DX (fun k => divf d (f_b x) w k * sv (exner_field P Xr) k) - DX (fun k => divf d (f_b Xr) w k * sv ex' k)
          + dS_v G vertical (fun f => jump_ (f_b x) w f * avg_ (exner_field P Xr) f) + dS_v G vertical (fun f => jump_ (f_b Xr) w f * avg_ ex' f)).
Variables (o : hybrid_options) (Xr xin : fields).
(** The linear momentum equation of the Schur complement form (compressible_euler_equations.py l.193-201) with the weights of l.497-499. *)
Definition linear_momentum (y : fields) (w : velocity_field) : R :=
  DX (fun k => vdot d (v_val (u_at w k)) (fun i => v_val (u_at (f_u y) k) i - v_val (u_at (f_u xin) k) i))
  + b_u o * linear_pressure Xr y w
  + match h_mu o with Some mu => h_dt o * DX (fun k => mu k * vdot d (v_val (u_at w k)) (kvec k) * vdot d (v_val (u_at (f_u y) k)) (kvec k)) | None => 0 end
  + match h_Om o with Some Om => b_u o * DX (fun k => vdot d (v_val (u_at w k)) (cross_omega Om (v_val (u_at (f_u y) k)))) | None => 0 end.
(** The linear density equation, as above. *)
Definition linear_density (y : fields) (phi : sfield) : R :=
  DX (fun k => sv phi k * (sv (f_D y) k - sv (f_D xin) k)) + b_r o * DX (fun k => sv phi k * divf d (f_D Xr) (f_u y) k).
(** The linear theta equation, as above. *)
Definition linear_theta (y : fields) (gamma : sfield) : R :=
  DX (fun k => sv gamma k * (sv (f_b y) k - sv (f_b xin) k)) + b_t o * DX (fun k => sv gamma k * vdot d (v_val (u_at (f_u y) k)) (sg (f_b Xr) k)).
End LinearEuler.
