(** Model of ShallowWaterEquations_1d and LinearShallowWaterEquations_1d (gusto/equations/shallow_water_equations.py l.664-827) with the forms
    advection_form_1d, continuity_form_1d, linear_continuity_form, diffusion_form_1d (gusto/equations/common_forms.py l.44-128, 307-319).
    A term is its integral over the points of the quadrature rule; dx and dx(degree=quad) are the same rule; kappa is constant.  div of a scalar expression on an
    interval is its derivative. *)
From Coq Require Import String.
From Verif Require Import Base Vec ShallowWater1dSpec.
Open Scope R_scope.

(** The rotation of the parameters (core/equation_configuration.py l.14-19). *)
Inductive rotation1 := NoRotation | FPlane | OtherRotation1.
(** One term: its form (X, test), the derivative at X_ref in direction of the trial function (ufl.derivative), and a linearisation given by hand. *)
Record term1 := { form1 : state1 -> state1 -> R; deriv1 : state1 -> state1 -> state1 -> R; hand1 : option (state1 -> state1 -> state1 -> R) }.
Section Equations.
Variables (n : nat) (w : nat -> R).
Notation DX := (integral n w).

(** advection_form_1d, common_forms.py l.44-62: test * ubar * q.dx(0) *)
Definition advection_form_1d (test q u : field1) : R := DX (fun k => val (test k) * val (u k) * d1 (q k)).
(** continuity_form_1d, l.109-127: test * (q * ubar).dx(0) *)
Definition continuity_form_1d (test q u : field1) : R := DX (fun k => val (test k) * d1 (mul1 q u k)).
(** linear_continuity_form, l.130-150: test*div(q*ubar) + test*div(qbar*u) *)
Definition linear_continuity_form_1d (test q u qbar ubar : field1) : R := DX (fun k => val (test k) * d1 (mul1 q ubar k)) + DX (fun k => val (test k) * d1 (mul1 qbar u k)).
(** diffusion_form_1d, l.307-319: -test * (kappa*q.dx(0)).dx(0) *)
Definition diffusion_form_1d (test q : field1) (kappa : R) : R := DX (fun k => - val (test k) * (kappa * d2 (q k))).

(** shallow_water_equations.py l.728-729 *)
Definition u_adv : term1 :=
  {| form1 := fun X T => advection_form_1d (u1 T) (u1 X) (u1 X);
     deriv1 := fun Xr tr T => advection_form_1d (u1 T) (u1 tr) (u1 Xr) + advection_form_1d (u1 T) (u1 Xr) (u1 tr); hand1 := None |}.
Definition v_adv : term1 :=
  {| form1 := fun X T => advection_form_1d (v1 T) (v1 X) (u1 X);
     deriv1 := fun Xr tr T => advection_form_1d (v1 T) (v1 tr) (u1 Xr) + advection_form_1d (v1 T) (v1 Xr) (u1 tr); hand1 := None |}.
(** l.732-739: the linearisation is given by hand if the map selects the term *)
Definition D_adv (lin : bool) : term1 :=
  {| form1 := fun X T => continuity_form_1d (D1 T) (D1 X) (u1 X);
     deriv1 := fun Xr tr T => linear_continuity_form_1d (D1 T) (D1 tr) (u1 tr) (D1 Xr) (u1 Xr);
     hand1 := if lin then Some (fun Xr tr T => linear_continuity_form_1d (D1 T) (D1 tr) (u1 tr) (D1 Xr) (u1 Xr)) else None |}.
(** l.743-744: -g * D * w1.dx(0) * dx *)
Definition pressure_term (g : R) : term1 :=
  let f := fun X T : state1 => DX (fun k => - g * val (D1 X k) * d1 (u1 T k)) in {| form1 := f; deriv1 := fun _ tr T => f tr T; hand1 := None |}.
(** l.758-760 *)
Definition coriolis_term (f0 : R) : list term1 :=
  let fu := fun X T : state1 => DX (fun k => - f0 * val (v1 X k) * val (u1 T k)) in
  let fv := fun X T : state1 => DX (fun k => f0 * val (u1 X k) * val (v1 T k)) in
  [{| form1 := fu; deriv1 := fun _ tr T => fu tr T; hand1 := None |}; {| form1 := fv; deriv1 := fun _ tr T => fv tr T; hand1 := None |}].
(** field_names.index(field), l.765: ValueError for other names *)
Definition select (field : string) : option (state1 -> field1) :=
  if String.eqb field "u" then Some u1 else if String.eqb field "v" then Some v1 else if String.eqb field "D" then Some D1 else None.
(** l.763-771 *)
Fixpoint diffusion_terms (opts : list (string * R)) : res (list term1) :=
  match opts with
  | [] => Ok []
  | (field, kappa) :: tl =>
      match select field with
      | None => Err ValueError
      | Some sel => match diffusion_terms tl with
          | Ok r => let f := fun X T : state1 => diffusion_form_1d (sel T) (sel X) kappa in Ok ({| form1 := f; deriv1 := fun _ tr T => f tr T; hand1 := None |} :: r)
          | Err e => Err e end
      end
  end.

(** The constructor, l.696-778, without the time derivatives.  The argument space_names is overwritten at l.702. *)
Definition shallow_water_1d (space_names : option (list (string * string))) (tracers : bool) (rot : rotation1) (f0 g : R) (diffusion : list (string * R)) (lin : bool) : res (list (string * string) * list term1) :=
  let space_names := [("u", "HDiv"); ("v", "L2"); ("D", "L2")]%string in
  if tracers then Err NotImplementedError else
  let r := ([u_adv; v_adv; D_adv lin] ++ [pressure_term g])%list in
  match rot with
  | OtherRotation1 => Err NotImplementedError
  | _ => let r := (r ++ match rot with FPlane => coriolis_term f0 | _ => [] end)%list in
         match diffusion_terms diffusion with Ok ds => Ok (space_names, (r ++ ds)%list) | Err e => Err e end
  end.
Definition residual1 (r : list term1) (X T : state1) : R := fold_right (fun t acc => form1 t X T + acc) 0 r.

(** generate_linear_terms with all_terms and linearise_equation_set (prognostic_equations.py l.181-259) *)
Definition linear_residual1 (Xr : state1) (r : list term1) (X T : state1) : R :=
  fold_right (fun t acc => match hand1 t with Some l => l Xr X T | None => deriv1 t Xr X T end + acc) 0 r.
(** LinearShallowWaterEquations_1d, l.781-827: no diffusion *)
Definition linear_shallow_water_1d (space_names : option (list (string * string))) (tracers : bool) (rot : rotation1) (f0 g : R) (Xr : state1) : res (state1 -> state1 -> R) :=
  match shallow_water_1d space_names tracers rot f0 g [] true with Ok (_, r) => Ok (linear_residual1 Xr r) | Err e => Err e end.
End Equations.
