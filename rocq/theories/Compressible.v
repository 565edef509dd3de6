(** Model of gusto/equations/compressible_euler_equations.py: CompressibleEulerEquations (l.26-289) and
    HydrostaticCompressibleEulerEquations (l.292-408).  The fields are those of Equations.v, with f_D the
    density rho and f_b the potential temperature theta.  Not modelled: linearisations, diffusion_options,
    extra_terms (further terms given by the user); the tracer transport terms are arbitrary.
    Simplification: dx and dx(degree=...) are the same quadrature rule. *)
From Verif Require Import Base Vec Transport CommonForms Equations Thermo.
From Coq Require Import String.
Open Scope R_scope.

(** ActiveTracer metadata (equations/active_tracers.py l.45-95): the field of a tracer is a function of X *)
Inductive phase := Gas | Liquid | Solid | Plasma.
(** What l.180-241 look at in the active tracers. *)
Record ctracer := { tr_H2O : bool (* chemical == 'H2O' *); tr_mixing : bool (* mixing_ratio *); tr_phase : phase; tr_of : fields -> sfield }.
(** Auxiliary, nothing in the code by itself. *)
Definition phase_eqb (a b : phase) : bool := match a, b with Gas, Gas | Liquid, Liquid | Solid, Solid | Plasma, Plasma => true | _, _ => false end.

(** l.180-191: tracer_mr_total, theta_v = theta / (1 + tracer_mr_total); tracers that are not mixing ratios
    are left out (a warning is logged) *)
Definition total_mr (p : ctracer -> bool) (ts : list ctracer) (X : fields) : sfield :=
  fold_right (fun t acc => if p t then sadd (tr_of t X) acc else acc) (constant 0) ts.
(** Auxiliary, nothing in the code by itself. *)
Definition quotient1 (a m : sfield) : sfield :=     (* a / (1 + m) *)
  {| sv := fun k => sv a k / (1 + sv m k); sg := fun k i => (sg a k i * (1 + sv m k) - sv a k * sg m k i) / ((1 + sv m k) * (1 + sv m k));
     sp := fun f => sp a f / (1 + sp m f); sm := fun f => sm a f / (1 + sm m f); sb := fun b => sb a b / (1 + sb m b) |}.
(** l.180-191. *)
Definition theta_v (ts : list ctracer) (X : fields) : sfield := quotient1 (f_b X) (total_mr tr_mixing ts X).
(** l.108: exner_pressure(parameters, rho, theta); the gradient is the chain rule *)
Definition exner_field (P : cparams) (X : fields) : sfield :=
  let e := exner_pressure P in
  {| sv := fun k => e (sv (f_D X) k) (sv (f_b X) k);
     sg := fun k i => dexner_drho P (sv (f_D X) k) (sv (f_b X) k) * sg (f_D X) k i + dexner_dtheta P (sv (f_D X) k) (sv (f_b X) k) * sg (f_b X) k i;
     sp := fun f => e (sp (f_D X) f) (sp (f_b X) f); sm := fun f => e (sm (f_D X) f) (sm (f_b X) f); sb := fun b => e (sb (f_D X) b) (sb (f_b X) b) |}.

(** ** The sponge layer, l.252-267.  z is the last Cartesian coordinate. *)
Record sponge_options := { sp_H : R; sp_z_level : R; sp_mubar : R }.
(** l.252-264. *)
Definition sponge_mu (o : sponge_options) (z : R) : R :=
  if Rle_dec z (sp_z_level o) then 0 else sp_mubar o * (sin (PI / 2 * (z - sp_z_level o) / (sp_H o - sp_z_level o)))^2.
(** the assertion of l.258-259 *)
Definition sponge_check (o : sponge_options) : res unit := if Rlt_dec (sp_z_level o) (sp_H o) then Ok tt else Err AssertionError.
(** l.253, 264: interpolation into DG2, along the vertical of a cell with nodes at x1, x2, x3 *)
Definition interpolate2 (x1 x2 x3 : R) (f : R -> R) (x : R) : R :=
  f x1 * ((x - x2) * (x - x3) / ((x1 - x2) * (x1 - x3))) + f x2 * ((x - x1) * (x - x3) / ((x2 - x1) * (x2 - x3)))
  + f x3 * ((x - x1) * (x - x2) / ((x3 - x1) * (x3 - x2))).

Section Euler.
Variables (G : geometry) (d : nat) (circ : nat -> (nat -> R) -> vpoint -> vpoint -> R) (kvec : nat -> nat -> R).
Variable vertical : nat -> bool.   (* which interior facets belong to dS_v *)
Variable P : cparams.
Notation DX := (dx G).
(** dS_v with the quadrature degree of the domain, l.193-195. *)
Definition dS_v (f : nat -> R) : R := dS_ G (fun k => if vertical k then f k else 0).

(** l.193-195 *)
Definition euler_pressure (ts : list ctracer) : fields -> fields -> R := fun X T =>
  let th := theta_v ts X in let ex := exner_field P X in let w := f_u T in
  cp P * (- DX (fun k => (sv th k * v_div d (u_at w k) + vdot d (v_val (u_at w k)) (sg th k)) * sv ex k)
          + dS_v (fun f => jump_ th w f * avg_ ex f)).
(** l.200-201 *)
Definition euler_gravity (g : R) : fields -> fields -> R := fun _ T => g * DX (fun k => vdot d (kvec k) (v_val (u_at (f_u T) k))).
(** l.209-241: the moist thermodynamic divergence term *)
Definition water (ph : phase) (t : ctracer) : bool := tr_H2O t && tr_mixing t && phase_eqb (tr_phase t) ph.
(** l.235. *)
Definition c_vml (r_v r_l : R) : R := cv P + r_v * c_vv P + r_l * c_pl P.
(** l.236. *)
Definition c_pml (r_v r_l : R) : R := cp P + r_v * c_pv P + r_l * c_pl P.
(** l.237. *)
Definition R_m (r_v : R) : R := R_d P + r_v * R_v P.
(** l.239-241. *)
Definition moist_coefficient (r_v r_l : R) : R := R_m r_v / c_vml r_v r_l - R_d P * c_pml r_v r_l / (cp P * c_vml r_v r_l).
(** l.209-241. *)
Definition euler_moist (ts : list ctracer) : fields -> fields -> R := fun X T =>
  DX (fun k => sv (f_b T) k * sv (f_b X) k * v_div d (u_at (f_u X) k)
               * moist_coefficient (sv (total_mr (water Gas) ts X) k) (sv (total_mr (water Liquid) ts X) k)).
(** l.246-250 *)
Definition euler_coriolis (Om : R) : fields -> fields -> R := fun X T =>
  DX (fun k => vdot d (v_val (u_at (f_u T) k)) (cross_omega Om (v_val (u_at (f_u X) k)))).
(** l.266-267; mu: the values of the prescribed field "sponge" *)
Definition euler_sponge (mu : nat -> R) : fields -> fields -> R := fun X T =>
  DX (fun k => mu k * vdot d (v_val (u_at (f_u T) k)) (kvec k) * vdot d (v_val (u_at (f_u X) k)) (kvec k)).

(** The labels of l.118-289. *)
Definition euler_term (labels : list string) (field : string) (f : fields -> fields -> R) : eqterm := term labels field f None None.
(** l.118-289.  transport_terms: the transport terms of the tracers *)
Definition compressible_euler (opt : string) (lm : bool) (g : R) (ts : list ctracer) (transport_terms : list eqterm)
    (Om : option R) (sponge : option (sponge_options * (nat -> R))) : res (list eqterm) :=
  match u_transport G d circ opt lm with
  | Err e => Err e
  | Ok u_adv =>
      let r := ([mass_term_u G d; mass_term_s G "rho" f_D; mass_term_s G "theta" f_b] ++ u_adv ++ [continuity_term G d "rho" f_D lm] ++
                [advection_term G d "theta" f_b lm] ++ transport_terms ++
                [euler_term ["pressure_gradient"%string] "u" (euler_pressure ts)] ++ [euler_term ["gravity"%string] "u" (euler_gravity g)] ++
                (match ts with [] => [] | _ => [euler_term [] "theta" (euler_moist ts)] end) ++
                opt_list (fun Om => euler_term ["coriolis"%string] "u" (euler_coriolis Om)) Om)%list in
      match sponge with
      | None => Ok r
      | Some (o, mu) => match sponge_check o with
                        | Err e => Err e
                        | Ok _ => Ok (r ++ [euler_term ["sponge"%string] "u" (euler_sponge mu)])%list
                        end
      end
  end.

(** ** HydrostaticCompressibleEulerEquations, l.362-408 *)
(** new_subj = field - inner(field, k)*k (l.402), substituted for u in the subject *)
Definition horizontal (X : fields) : fields :=
  {| f_u := {| u_at := fun k => {| v_val := fun i => v_val (u_at (f_u X) k) i - vdot d (v_val (u_at (f_u X) k)) (kvec k) * kvec k i;
                                   v_grad := v_grad (u_at (f_u X) k) |};     (* mass terms use values only *)
               u_np := u_np (f_u X); u_nm := u_nm (f_u X); u_nb := u_nb (f_u X) |};
     f_D := f_D X; f_b := f_b X; f_q := f_q X |}.
(** hydrostatic_projection, l.381-408. *)
Definition hydrostatic_projection (t : eqterm) : eqterm :=
  term (t_labels t) (t_field t) (fun X T => t_form t (horizontal X) T) None (t_lin t).
(** l.370-378. *)
Definition hydrostatic_form : fields -> fields -> R := fun X T =>
  - DX (fun k => vdot d (kvec k) (v_val (u_at (f_u T) k)) * vdot d (kvec k) (v_val (u_at (f_u X) k))).
(** l.292-378. *)
Definition hydrostatic_euler opt lm g ts transport_terms Om sponge : res (list eqterm) :=
  match compressible_euler opt lm g ts transport_terms Om sponge with
  | Err e => Err e
  | Ok r => Ok (List.map (fun t => if has_lab "time_derivative" t then hydrostatic_projection t else t) r
                ++ [euler_term ["hydrostatic"%string] "u" hydrostatic_form])%list
  end.
End Euler.
