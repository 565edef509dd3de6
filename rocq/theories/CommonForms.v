(** Model of gusto/equations/common_forms.py and of gusto/spatial_methods/diffusion_methods.py.

    The continuous forms are integrals of pointwise expressions; the expressions are modelled at one point (values
    and derivatives of the fields there).  UFL conventions: grad(q)[i, j] is the derivative of q_i in
    direction j; dot(a, B)[j] = sum_i a_i B[i, j] contracts the last index of a with the FIRST index of B;
    div(outer(q, u))_i = sum_j d_j (q_i u_j). *)
From Verif Require Import Base Vec Transport.
From Coq Require Import String.
Open Scope R_scope.

(** a scalar field at a point: value and gradient; a vector field: values and q_(i,j) = d_j q_i *)
(** Auxiliary, nothing in the code by itself. *)
Record spoint := { s_val : R; s_grad : nat -> R }.
(** Auxiliary, nothing in the code by itself. *)
Record vpoint := { v_val : nat -> R; v_grad : nat -> nat -> R }.

Section Pointwise.
Variable d : nat.
(** Auxiliary, nothing in the code by itself. *)
Definition v_div (u : vpoint) : R := rsum d (fun i => v_grad u i i).
(** advection_form (l.23-42) for scalar q: test * dot(ubar, grad(q)) *)
Definition advection (test : R) (q : spoint) (u : vpoint) : R := test * rsum d (fun i => v_val u i * s_grad q i).
(** advection_form for vector q: inner(test, dot(ubar, grad(q))) *)
(** advection_form, l.23-42. *)
Definition vector_advection (test : nat -> R) (q u : vpoint) : R :=
  rsum d (fun j => test j * rsum d (fun i => v_val u i * v_grad q i j)).
(** continuity_form (l.88-106): test * div(q*ubar) *)
Definition continuity (test : R) (q : spoint) (u : vpoint) : R := test * (s_val q * v_div u + rsum d (fun i => v_val u i * s_grad q i)).
(** linear_advection_form (l.65-85), linear_continuity_form (l.130-150) *)
Definition linear_advection (test : R) (q : spoint) (u : vpoint) (qbar : spoint) (ubar : vpoint) : R :=
  advection test q ubar + advection test qbar u.
(** linear_continuity_form, l.130-150. *)
Definition linear_continuity (test : R) (q : spoint) (u : vpoint) (qbar : spoint) (ubar : vpoint) : R :=
  continuity test q ubar + continuity test qbar u.
(** tracer_conservative_form (l.386-408) *)
Definition sprod (a b : spoint) : spoint := {| s_val := s_val a * s_val b; s_grad := fun i => s_val a * s_grad b i + s_val b * s_grad a i |}.
(** tracer_conservative_form, l.386-408. *)
Definition tracer_conservative (test : R) (q rho : spoint) (u : vpoint) : R := continuity test (sprod q rho) u.
(** kinetic_energy_form (l.213-232): -0.5*div(test)*inner(q, ubar) *)
Definition kinetic_energy (test q u : vpoint) : R := - (1/2) * v_div test * rsum d (fun i => v_val q i * v_val u i).
End Pointwise.

(** advection_equation_circulation_form, l.235-269, in three dimensions: inner(test, cross(curl(q), ubar)) *)
Definition cross3 (a b : nat -> R) (i : nat) : R :=
  match i with 0%nat => a 1%nat * b 2%nat - a 2%nat * b 1%nat | 1%nat => a 2%nat * b 0%nat - a 0%nat * b 2%nat | _ => a 0%nat * b 1%nat - a 1%nat * b 0%nat end.
(** curl in three dimensions, used at l.261. *)
Definition curl3 (q : vpoint) (i : nat) : R :=
  match i with 0%nat => v_grad q 2 1 - v_grad q 1 2 | 1%nat => v_grad q 0 2 - v_grad q 2 0 | _ => v_grad q 1 0 - v_grad q 0 1 end.
(** advection_equation_circulation_form, l.235-269, three dimensions. *)
Definition circulation3 (test : nat -> R) (q u : vpoint) : R := rsum 3 (fun i => test i * cross3 (curl3 q) (v_val u) i).
(** in two dimensions: inner(test, div(perp(q))*perp(ubar)), perp(q) = (-q_1, q_0) (core/domain.py l.131) *)
Definition perp2 (u : nat -> R) (i : nat) : R := match i with 0%nat => - u 1%nat | _ => u 0%nat end.
(** domain.divperp, core/domain.py l.132. *)
Definition div_perp2 (q : vpoint) : R := - v_grad q 1 0 + v_grad q 0 1.
(** advection_equation_circulation_form, l.235-269, two dimensions. *)
Definition circulation2 (test : nat -> R) (q u : vpoint) : R := rsum 2 (fun i => test i * (div_perp2 q * perp2 (v_val u) i)).
(** linear_circulation_form, l.272-289 (dim: the circulation form of that dimension) *)
Definition linear_circulation (circ : (nat -> R) -> vpoint -> vpoint -> R) (test : nat -> R) (q ubar : vpoint) : R := circ test q ubar + circ test ubar q.
(** vector_invariant_form, l.153-182; linear_vector_invariant_form, l.185-210 *)
Definition vector_invariant d (circ : (nat -> R) -> vpoint -> vpoint -> R) (test q u : vpoint) : R :=
  circ (v_val test) q u - 1/2 * v_div d test * rsum d (fun i => v_val q i * v_val u i).
(** linear_vector_invariant_form, l.185-210. *)
Definition linear_vector_invariant d (circ : (nat -> R) -> vpoint -> vpoint -> R) (test q ubar : vpoint) : R :=
  linear_circulation circ (v_val test) q ubar - v_div d test * rsum d (fun i => v_val q i * v_val ubar i).

(** ** Splitting terms of an equation.  What the terms are integrals of; transported fields by name, the
    transporting velocity either the prognostic or a prescribed u. *)
(** Where a term takes its velocity from, l.350-358. *)
Inductive velocity := PrognosticU | PrescribedU | OwnVelocity   (* the velocity of the original term *).
(** The forms that l.322-531 build or replace. *)
Inductive tform :=
| Conserve (v : velocity) | Advect (v : velocity) | Divergence (v : velocity)   (* div(q u), u.grad q, q div u *)
| AdvectH (v : velocity) | AdvectV (v : velocity)                               (* u_h.grad q, u_v.grad q *)
| Other (id : nat).
(** the linearisation stored with a term: forms in the trial velocity u' and reference qbar; Affine marks a part
    that contains no trial function *)
(** The linearisations that l.322-452 build or keep. *)
Inductive lform := LConserve | LAdvect (* u'.grad qbar *) | LAffine (* u.grad qbar *) | LDivergence (* qbar div u' *) | LAdvectH | LAdvectV | LOther (id : nat).
(** A term of the residual with the labels that l.322-531 read or set. *)
Record eterm := { e_form : tform; e_field : string; e_type : option eqn_type; e_lin : option (list lform); e_horizontal : bool; e_vertical : bool; e_labels : list string (* other labels *) }.
(** The attributes of the equation that l.322-531 read. *)
Record equation := { eq_fields : option (list string) (* field_names, if it has them *); eq_prescribed : list string }.

(** Auxiliary, nothing in the code by itself. *)
Definition mem (s : string) (l : list string) : bool := existsb (String.eqb s) l.
(** Auxiliary, nothing in the code by itself. *)
Definition is_type (ty : eqn_type) (t : eterm) : bool :=
  match e_type t, ty with Some Advective, Advective | Some Conservative, Conservative => true | _, _ => false end.
(** the velocity, l.350-358: the prognostic u, else a prescribed u, else ValueError *)
Definition find_velocity (E : equation) : res velocity :=
  match eq_fields E with
  | Some names => if mem "u" names then Ok PrognosticU else if mem "u" (eq_prescribed E) then Ok PrescribedU else Err ValueError
  | None => if mem "u" (eq_prescribed E) then Ok PrescribedU else Err ValueError
  end.
(** one conservative term, l.337-377.  u_idx (l.366) is only bound for a prognostic u: otherwise an
    UnboundLocalError, shown here as None.  The new terms carry none of the other labels. *)
Definition split_continuity_term (E : equation) (t : eterm) : res (option (list eterm)) :=
  do _ <- (match eq_fields E with
           | Some names => if mem (e_field t) names then Ok tt else Err ValueError
           | None => Ok tt
           end);
  do v <- find_velocity E;
  match e_lin t, v with
  | None, _ => Ok (Some [{| e_form := Advect v; e_field := e_field t; e_type := Some Advective; e_lin := None; e_horizontal := false; e_vertical := false; e_labels := [] |};
                         {| e_form := Divergence v; e_field := e_field t; e_type := None; e_lin := None; e_horizontal := false; e_vertical := false; e_labels := [] |}])
  | Some _, PrognosticU =>
      Ok (Some [{| e_form := Advect v; e_field := e_field t; e_type := Some Advective; e_lin := Some [LAffine; LAdvect]; e_horizontal := false; e_vertical := false; e_labels := [] |};
                {| e_form := Divergence v; e_field := e_field t; e_type := None; e_lin := Some [LDivergence]; e_horizontal := false; e_vertical := false; e_labels := [] |}])
  | Some _, _ => Ok None
  end.
(** split_continuity_form, l.322-383: the loop runs over the original terms; each pass adds the new terms and
    drops all conservative ones *)
Fixpoint split_loop (pred : eterm -> bool) (one : eterm -> res (option (list eterm))) (ts : list eterm) (residual : list eterm) : res (option (list eterm)) :=
  match ts with
  | [] => Ok (Some residual)
  | t :: ts' =>
      if pred t then do new <- one t;
        match new with
        | None => Ok None
        | Some new => split_loop pred one ts' (filter (fun t => negb (pred t)) (residual ++ new)%list)
        end
      else split_loop pred one ts' residual
  end.
(** l.322-383. *)
Definition split_continuity_form (E : equation) (residual : list eterm) : res (option (list eterm)) :=
  split_loop (is_type Conservative) (split_continuity_term E) residual residual.
(** split_hv_advective_form, l.455-531: one advective term of the field; here the old terms are dropped before the
    new ones, which are advective themselves, are added *)
Definition split_hv_term (E : equation) (field : string) (t : eterm) : res (option (list eterm)) :=
  do v <- find_velocity E;
  do _ <- (match v, eq_fields E with PrognosticU, Some names => if mem field names then Ok tt else Err ValueError | _, _ => Ok tt end);
  let H l := {| e_form := AdvectH v; e_field := field; e_type := Some Advective; e_lin := l; e_horizontal := true; e_vertical := false; e_labels := [] |} in
  let V l := {| e_form := AdvectV v; e_field := field; e_type := Some Advective; e_lin := l; e_horizontal := false; e_vertical := true; e_labels := [] |} in
  match e_lin t, v with
  | None, _ => Ok (Some [H None; V None])
  | Some _, PrognosticU => Ok (Some [H (Some [LAdvectH]); V (Some [LAdvectV])])
  | Some _, _ => Ok None
  end.
(** The loop of l.455-531. *)
Fixpoint split_hv_loop (pred : eterm -> bool) (one : eterm -> res (option (list eterm))) (ts : list eterm) (residual : list eterm) : res (option (list eterm)) :=
  match ts with
  | [] => Ok (Some residual)
  | t :: ts' =>
      if pred t then do new <- one t;
        match new with
        | None => Ok None
        | Some new => split_hv_loop pred one ts' (filter (fun t => negb (pred t)) residual ++ new)%list
        end
      else split_hv_loop pred one ts' residual
  end.
(** l.455-531. *)
Definition split_hv_advective_form (E : equation) (field : string) (residual : list eterm) : res (option (list eterm)) :=
  split_hv_loop (fun t => is_type Advective t && String.eqb (e_field t) field) (split_hv_term E field) residual residual.

(** ** Diffusion (spatial_methods/diffusion_methods.py).  Facet points with both normals and both gradients. *)
Record dfield := { d_grad : nat -> nat -> R (* at cell points *); d_plus : nat -> R; d_minus : nat -> R; d_gplus : nat -> nat -> R; d_gminus : nat -> nat -> R }.
(** interior_penalty_diffusion_form, l.28-77 (scalar field, constant kappa); the 1d version, l.80-127, is the case d = 1 *)
Definition jump_n (np nm : nat -> nat -> R) (q : dfield) (f i : nat) : R := d_plus q f * np f i + d_minus q f * nm f i.
(** avg(kappa grad(q)), diffusion_methods.py l.28-77. *)
Definition avg_grad (kappa : R) (q : dfield) (f i : nat) : R := 1/2 * (d_gplus q f i * kappa + d_gminus q f i * kappa).
(** interior_penalty_diffusion_form, diffusion_methods.py l.28-77. *)
Definition ip_diffusion (G : geometry) (d : nat) (np nm : nat -> nat -> R) (kappa mu : R) (test q : dfield) : R :=
  dx G (fun k => dot d (d_grad test k) (fun i => d_grad q k i * kappa))
  + dS_ G (fun f => - dot d (jump_n np nm q f) (avg_grad kappa test f)
                    - dot d (avg_grad kappa q f) (jump_n np nm test f)
                    + mu * dot d (jump_n np nm q f) (fun i => jump_n np nm test f i * kappa)).
(** CGDiffusion, l.154-165 *)
Definition cg_diffusion (G : geometry) (d : nat) (kappa : R) (test q : dfield) : R :=
  dx G (fun k => kappa * dot d (d_grad test k) (d_grad q k)).

(** ** split_upwind_advection_form, transport_methods.py l.373-443: the upwind forms of the horizontal and the
    vertical part of the velocity, added up by the equation *)
Definition split_upwind_advection_form (G : geometry) (d : nat) (i : ibp) (outflow : bool) (test q : sfield) (uh uv_ : vfield) : res (R * R) :=
  do h <- upwind_advection_form G d i outflow test q uh;
  do v <- upwind_advection_form G d i outflow test q uv_; Ok (h, v).
