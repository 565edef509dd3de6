(** Model of the transport forms for vectors of gusto/spatial_methods/transport_methods.py: upwind_circulation_form (l.800-878) in three dimensions and on
    the sphere (in the plane: Transport.v), upwind_vector_invariant_form (l.881-918), and the facet terms of vector_manifold_advection_form (l.721-757) and
    vector_manifold_continuity_form (l.760-797).  Integrals as in Transport.v; a vector field is known by values and derivatives at the cell points
    and by its traces at the facet points.  The surface integrals of the sphere use all components in space, as UFL does there. *)
From Verif Require Import Base Vec Transport CommonForms.
Open Scope R_scope.

(** Auxiliary, nothing in the code by itself. *)
Record vfld := { vc : nat -> vpoint; vp : nat -> nat -> R; vm : nat -> nat -> R }.
(** cross(a, b) as a field *)
(** Auxiliary, nothing in the code by itself. *)
Definition crossp (a b : vpoint) : vpoint :=
  {| v_val := cross3 (v_val a) (v_val b);
     v_grad := fun i j => cross3 (fun l => v_grad a l j) (v_val b) i + cross3 (v_val a) (fun l => v_grad b l j) i |}.
Section Forms.
Variable G : geometry.
(** n('+'), n('-') *)
Variables np nm : nat -> nat -> R.
(** l.839: Upwind = 0.5*(sign(dot(ubar, n))+1) on each side *)
Definition Up d (u : vfld) (f : nat) : R := upwind (dot d (vp u f) (np f)).
(** l.800-878. *)
Definition Um d (u : vfld) (f : nat) : R := upwind (dot d (vm u f) (nm f)).
(** l.841-857: both(u) = 2*avg(u) = u('+') + u('-') *)
Definition upwind_circulation_3d (i : ibp) (test q u : vfld) : res R :=
  match i with
  | Once => Ok (dx G (fun k => dot 3 (v_val (vc q k)) (curl3 (crossp (vc u k) (vc test k))))
                - dS_ G (fun f => dot 3 (fun a => Up 3 u f * vp q f a + Um 3 u f * vm q f a)
                                        (fun a => cross3 (np f) (cross3 (vp u f) (vp test f)) a + cross3 (nm f) (cross3 (vm u f) (vm test f)) a)))
  | _ => Err NotImplementedError
  end.
(** l.859-876 on the sphere: perp(u) = cross(outward_normals, u), core/domain.py l.124 *)
Definition inner_perp (kn test u : vpoint) : spoint :=
  {| s_val := dot 3 (v_val test) (v_val (crossp kn u));
     s_grad := fun j => dot 3 (fun a => v_grad test a j) (v_val (crossp kn u)) + dot 3 (v_val test) (fun a => v_grad (crossp kn u) a j) |}.
(** l.800-878. *)
Definition upwind_circulation_sphere (kn : vfld) (i : ibp) (test q u : vfld) : R :=
  let sp_ := fun f => dot 3 (vp test f) (cross3 (vp kn f) (vp u f)) in
  let sm_ := fun f => dot 3 (vm test f) (cross3 (vm kn f) (vm u f)) in
  (* inner(jump(inner(test, perp(ubar)), n), perp_u_upwind(q)) *)
  let facet := dS_ G (fun f => dot 3 (fun a => sp_ f * np f a + sm_ f * nm f a)
                                     (fun a => Up 3 u f * cross3 (vp kn f) (vp q f) a + Um 3 u f * cross3 (vm kn f) (vm q f) a)) in
  match i with
  | Once => - dx G (fun k => dot 3 (cross3 (v_val (vc kn k)) (s_grad (inner_perp (vc kn k) (vc test k) (vc u k)))) (v_val (vc q k))) - facet
  | _ => - dx G (fun k => s_val (inner_perp (vc kn k) (vc test k) (vc u k)) * v_div 3 (crossp (vc kn k) (vc q k))) - facet
         + dS_ G (fun f => sp_ f * dot 3 (cross3 (vp kn f) (vp q f)) (np f) + sm_ f * dot 3 (cross3 (vm kn f) (vm q f)) (nm f))
  end.
(** l.915: the kinetic energy part; d: geometric dimension *)
Definition kinetic_part d (test q u : vfld) : R := dx G (fun k => 1/2 * v_div d (vc test k) * dot d (v_val (vc q k)) (v_val (vc u k))).
(** l.881-918. *)
Definition upwind_vector_invariant_3d (i : ibp) (test q u : vfld) : res R := do c <- upwind_circulation_3d i test q u; Ok (c - kinetic_part 3 test q u).
(** l.881-918. *)
Definition upwind_vector_invariant_sphere (kn : vfld) (i : ibp) (test q u : vfld) : R := upwind_circulation_sphere kn i test q u - kinetic_part 3 test q u.
(** a planar field of Transport.v as such a field *)
(** Auxiliary, nothing in the code by itself. *)
Definition of_planar (p : planar) : vfld :=
  let pick := fun (a b : nat -> R) (k i : nat) => match i with 0%nat => a k | _ => b k end in
  {| vc := fun k => {| v_val := pick (sv (fst p)) (sv (snd p)) k; v_grad := fun i j => match i with 0%nat => sg (fst p) k j | _ => sg (snd p) k j end |};
     vp := pick (sp (fst p)) (sp (snd p)); vm := pick (sm (fst p)) (sm (snd p)) |}.
(** l.881-918. *)
Definition upwind_vector_invariant_plane (i : ibp) (test q u : planar) : R :=
  upwind_circulation_form G i np nm test q u - kinetic_part 2 (of_planar test) (of_planar q) (of_planar u).

(** ** The facet terms of vector-valued upwind advection and continuity forms (l.487-490, 594-597), and the manifold correction (l.750-755, 789-793) *)
Definition unp d (u : vfld) (f : nat) : R := un (dot d (vp u f) (np f)).
(** vector_manifold_* forms, l.721-797. *)
Definition unm d (u : vfld) (f : nat) : R := un (dot d (vm u f) (nm f)).
(** vector_manifold_* forms, l.721-797. *)
Definition vector_upwind_flux d (test q u : vfld) : R :=
  dS_ G (fun f => dot d (fun a => vp test f a - vm test f a) (fun a => unp d u f * vp q f a - unm d u f * vm q f a)).
(** vector_manifold_* forms, l.721-797. *)
Definition manifold_correction d (test q u : vfld) : R :=
  dS_ G (fun f => unp d u f * dot d (vm test f) (fun a => np f a + nm f a) * dot d (vp q f) (np f))
  + dS_ G (fun f => unm d u f * dot d (vp test f) (fun a => np f a + nm f a) * dot d (vm q f) (nm f)).
End Forms.
