(** Model of BoundaryLayerMixing (gusto/physics/boundary_and_turbulence.py l.541-692): the diffusion coefficient and the
    form that is added to the residual, at quadrature points as in CommonForms.v (values and gradients of the fields at
    cell points and on both sides of the facet points).  The recovery of the density (l.587-590, C56) and the equation of
    state (C62) are not repeated: the recovered density and the pressure are given fields.  UFL: outer(a, b)[i, j] = a_i b_j,
    a product if one of them is a scalar; dot(grad(q), k)[i] = sum_j d_j q_i k_j. *)
From Coq Require Import String.
From Verif Require Import Base Vec Thermo Microphysics BoundaryLayer Transport CommonForms Compressible.
Open Scope R_scope.

(** ** The coefficient, l.592-632 *)
(** l.594-595 *)
Definition p_top : R := 85000.
(** l.597. *)
Definition p_strato : R := 10000.
(** l.604-616: the drag coefficient for the wind speed s; C_D3 is zero *)
Definition drag_coefficient (B : blparams) (s : R) : R := cond s 20 (C_D0 B + C_D1 B * s) (C_D2 B + 0 * s).
(** l.617-619 (u) and l.622-625 (other fields): conditional(p > p_top, ..., ...) *)
Definition diffusivity (B : blparams) (field_name : string) (s p : R) : R :=
  let C := if String.eqb field_name "u" then drag_coefficient B s else C_E B in
  cond p_top p (C * s * z_a B) (C * s * z_a B * exp (- ((p_top - p) / p_strato) ^ 2)).

(** ** Fields: at cell points, on the plus and the minus side of the interior facets *)
(** Auxiliary, nothing in the code by itself. *)
Record placed (A : Type) := { at_cell : nat -> A; at_plus : nat -> A; at_minus : nat -> A }.
Arguments at_cell {A}. Arguments at_plus {A}. Arguments at_minus {A}.
(** Auxiliary, nothing in the code by itself. *)
Definition avg_of (a b : R) : R := 1/2 * (a + b).

(** the coefficient as a field: values from the wind speed and the pressure, derivatives given *)
(** K, l.604-628, as a field. *)
Definition K_field (B : blparams) (field_name : string) (s p : placed R) (grad : placed (nat -> R)) : placed spoint :=
  {| at_cell := fun c => {| s_val := diffusivity B field_name (at_cell s c) (at_cell p c); s_grad := at_cell grad c |};
     at_plus := fun f => {| s_val := diffusivity B field_name (at_plus s f) (at_plus p f); s_grad := at_plus grad f |};
     at_minus := fun f => {| s_val := diffusivity B field_name (at_minus s f) (at_minus p f); s_grad := at_minus grad f |} |}.

Section Form.
Variables (G : geometry) (d : nat) (vertical : nat -> bool) (* facets between columns, those of dS_v *)
          (np nm : nat -> nat -> R)                          (* facet normals, plus and minus side *)
          (kc kf : nat -> nat -> R).                         (* domain.k at the cell points and the facet points *)
(** l.643-645: dot(k, d_dz(dot(k, xyz))), from the gradient g of dot(k, xyz): outer(k, dot(g, k)) *)
Definition cell_height (k g : nat -> R) : R := dot d k (fun i => k i * dot d g k).

(** *** Scalar fields *)
(** l.638: d_dz *)
Definition d_dz (k : nat -> R) (q : spoint) (i : nat) : R := k i * dot d (s_grad q) k.
(** test / rho_averaged *)
(** test/rho_averaged, l.661. *)
Definition squot (t r : spoint) : spoint :=
  {| s_val := s_val t / s_val r; s_grad := fun i => s_grad t i / s_val r - s_val t * s_grad r i / (s_val r) ^ 2 |}.
(** avg(outer(q, n)) *)
(** avg(outer(., n)), l.663-665. *)
Definition avg_n (q : placed R) (f i : nat) : R := avg_of (at_plus q f * np f i) (at_minus q f * nm f i).
(** avg(d_dz(q)) *)
(** avg(d_dz(.)), l.663-664. *)
Definition avg_dz (q : placed spoint) (f i : nat) : R := avg_of (d_dz (kf f) (at_plus q f) i) (d_dz (kf f) (at_minus q f) i).
(** Auxiliary, nothing in the code by itself. *)
Definition times (a b : placed spoint) : placed spoint :=
  {| at_cell := fun c => sprod (at_cell a c) (at_cell b c); at_plus := fun f => sprod (at_plus a f) (at_plus b f); at_minus := fun f => sprod (at_minus a f) (at_minus b f) |}.
(** Auxiliary, nothing in the code by itself. *)
Definition values (q : placed spoint) : placed R :=
  {| at_cell := fun c => s_val (at_cell q c); at_plus := fun f => s_val (at_plus q f); at_minus := fun f => s_val (at_minus q f) |}.
(** l.659-666: what is added to the residual, so that the field changes at the rate minus the source *)
Definition mixing_source (mu : R) (dz : placed R) (rho K test field : placed spoint) : R :=
  dx G (fun c => s_val (at_cell rho c) * s_val (at_cell K c) * dot d (d_dz (kc c) (squot (at_cell test c) (at_cell rho c))) (d_dz (kc c) (at_cell field c)))
  + dS_v G vertical (fun f => - 2 * dot d (avg_n (values (times K field)) f) (avg_dz test f)
                              - 2 * dot d (avg_n (values test) f) (avg_dz (times K field) f)
                              + 4 * mu * avg_of (at_plus dz f) (at_minus dz f) * dot d (avg_n (values (times K field)) f) (avg_n (values test) f)).

(** *** Vector fields: u, of which l.654-656 take the horizontal part *)
Definition inner (a b : nat -> nat -> R) : R := rsum d (fun i => dot d (a i) (b i)).
(** outer(k, dot(grad(q), k)): the first index is that of k *)
(** d_dz for vectors, l.638. *)
Definition v_dz (k : nat -> R) (q : vpoint) (i j : nat) : R := k i * dot d (v_grad q j) k.
(** l.661 for vectors. *)
Definition vquot (t : vpoint) (r : spoint) : vpoint :=
  {| v_val := fun i => v_val t i / s_val r; v_grad := fun i j => v_grad t i j / s_val r - v_val t i * s_grad r j / (s_val r) ^ 2 |}.
(** Auxiliary, nothing in the code by itself. *)
Definition vtimes (a : spoint) (q : vpoint) : vpoint :=
  {| v_val := fun i => s_val a * v_val q i; v_grad := fun i j => s_val a * v_grad q i j + v_val q i * s_grad a j |}.
(** Auxiliary, nothing in the code by itself. *)
Definition vtimes_p (a : placed spoint) (q : placed vpoint) : placed vpoint :=
  {| at_cell := fun c => vtimes (at_cell a c) (at_cell q c); at_plus := fun f => vtimes (at_plus a f) (at_plus q f); at_minus := fun f => vtimes (at_minus a f) (at_minus q f) |}.
(** avg(outer(q, n)), avg(d_dz(q)) *)
(** l.663-665 for vectors. *)
Definition vavg_n (q : placed vpoint) (f i j : nat) : R := avg_of (v_val (at_plus q f) i * np f j) (v_val (at_minus q f) i * nm f j).
(** l.663-664 for vectors. *)
Definition vavg_dz (q : placed vpoint) (f i j : nat) : R := avg_of (v_dz (kf f) (at_plus q f) i j) (v_dz (kf f) (at_minus q f) i j).
(** l.659-666 *)
Definition mixing_source_v (mu : R) (dz : placed R) (rho K : placed spoint) (test field : placed vpoint) : R :=
  dx G (fun c => s_val (at_cell rho c) * s_val (at_cell K c) * inner (v_dz (kc c) (vquot (at_cell test c) (at_cell rho c))) (v_dz (kc c) (at_cell field c)))
  + dS_v G vertical (fun f => - 2 * inner (vavg_n (vtimes_p K field) f) (vavg_dz test f)
                              - 2 * inner (vavg_n test f) (vavg_dz (vtimes_p K field) f)
                              + 4 * mu * avg_of (at_plus dz f) (at_minus dz f) * inner (vavg_n (vtimes_p K field) f) (vavg_n test f)).
End Form.

(** ** The constructor and evaluate: l.559-575, 668-692 *)
Definition mixing_label (compressible_euler : bool) (field_names : list string) (field_name : string) : res string :=
  if negb compressible_euler then Err ValueError
  else if negb (existsb (String.eqb field_name) field_names) then Err ValueError
  else Ok (append "boundary_layer_mixing_" field_name).
(** the source state is kept for the form; there is no output source *)
(** evaluate, l.671-692. *)
Definition mixing_evaluate {X : Type} (x_in : X) (x_out : option X) : X * res unit :=
  (x_in, match x_out with None => Ok tt | Some _ => Err NotImplementedError end).
