(** Model of the discretised transport forms of gusto/spatial_methods/transport_methods.py.

    Integrals are sums over quadrature points with weights: dx over cell points, dS_ over interior
    facet points, ds over exterior facet points (cells, facets and elements of any kind, any number).
    A field is known by its values and gradients at the cell points and by its traces on both sides
    of the facet points.  Fields are scalar: for a vector-valued q every form is the sum of the
    scalar forms of its components (inner(div(outer(test, u)), q) and so on). *)
From Verif Require Import Base Vec.
Open Scope R_scope.

(** Auxiliary, nothing in the code by itself. *)
Record geometry := { ncp : nat; cw : nat -> R; nfp : nat; fw : nat -> R; nbp : nat; bw : nat -> R }.
(** value and gradient at cell points, traces '+' and '-' at interior facet points, trace at exterior
    facet points *)
(** Auxiliary, nothing in the code by itself. *)
Record sfield := { sv : nat -> R; sg : nat -> nat -> R; sp : nat -> R; sm : nat -> R; sb : nat -> R }.
(** a velocity: value and divergence at cell points, u('+').n('+') and u('-').n('-'), u.n outside *)
(** Auxiliary, nothing in the code by itself. *)
Record vfield := { uv : nat -> nat -> R; ud : nat -> R; up : nat -> R; um : nat -> R; ub : nat -> R }.

Section Forms.
Variables (G : geometry) (d : nat).   (* d: geometric dimension *)
(** Auxiliary, nothing in the code by itself. *)
Definition dx (f : nat -> R) : R := rsum (ncp G) (fun k => cw G k * f k).
(** Auxiliary, nothing in the code by itself. *)
Definition dS_ (f : nat -> R) : R := rsum (nfp G) (fun k => fw G k * f k).
(** Auxiliary, nothing in the code by itself. *)
Definition ds_ (f : nat -> R) : R := rsum (nbp G) (fun k => bw G k * f k).
(** Auxiliary, nothing in the code by itself. *)
Definition dot (a b : nat -> R) : R := rsum d (fun i => a i * b i).
(** div(outer(s, u)) for a scalar s; inner(grad(s), outer(q, u)) *)
(** Auxiliary, nothing in the code by itself. *)
Definition div_su (s : sfield) (u : vfield) (k : nat) : R := sv s k * ud u k + dot (uv u k) (sg s k).
(** Auxiliary, nothing in the code by itself. *)
Definition product (s q : sfield) : sfield :=
  {| sv := fun k => sv s k * sv q k; sg := fun k i => sv s k * sg q k i + sv q k * sg s k i;
     sp := fun f => sp s f * sp q f; sm := fun f => sm s f * sm q f; sb := fun b => sb s b * sb q b |}.

(** un = 0.5*(dot(ubar, n) + abs(dot(ubar, n))) *)
(** l.446-503 and the other forms. *)
Definition un (a : R) : R := 1/2 * (a + Rabs a).
(** dot(jump(test), (un('+')*q('+') - un('-')*q('-')))*dS_ *)
(** l.446-503 and the other forms. *)
Definition upwind_flux (test q : sfield) (u : vfield) : R :=
  dS_ (fun f => (sp test f - sm test f) * (un (up u f) * sp q f - un (um u f) * sm q f)).
(** the facet terms subtracted with IntegrateByParts.TWICE *)
(** l.446-503 and the other forms. *)
Definition interior_flux (test q : sfield) (u : vfield) : R :=
  dS_ (fun f => sp test f * (up u f * sp q f) + sm test f * (um u f * sm q f)).
(** test*un*q*(ds_v + ds_t + ds_b) *)
(** l.446-503 and the other forms. *)
Definition outflow_flux (test q : sfield) (u : vfield) : R := ds_ (fun b => sb test b * un (ub u b) * sb q b).

(** core/configuration.py IntegrateByParts. *)
Inductive ibp := Never | Once | Twice.
(** Auxiliary, nothing in the code by itself. *)
Definition is_never (i : ibp) : bool := match i with Never => true | _ => false end.
(** The pattern shared by the upwind_*_form functions, l.373-798. *)
Definition assemble_form (i : ibp) (outflow : bool) (once by_parts : R) (test q : sfield) (u : vfield) : res R :=
  if outflow && is_never i then Err ValueError
  else
    let L := match i with Once => once | _ => by_parts end in
    let L := match i with
             | Never => L
             | Once => L + upwind_flux test q u
             | Twice => L + upwind_flux test q u - interior_flux test q u
             end in
    Ok (if outflow then L + outflow_flux test q u else L).
(** upwind_advection_form, l.446-502 *)
Definition upwind_advection_form (i : ibp) (outflow : bool) (test q : sfield) (u : vfield) : res R :=
  assemble_form i outflow
    (- dx (fun k => div_su test u k * sv q k))
    (dx (fun k => sv test k * dot (uv u k) (sg q k))) test q u.
(** upwind_continuity_form, l.553-609 *)
Definition upwind_continuity_form (i : ibp) (outflow : bool) (test q : sfield) (u : vfield) : res R :=
  assemble_form i outflow
    (- dx (fun k => sv q k * dot (uv u k) (sg test k)))
    (dx (fun k => sv test k * div_su q u k)) test q u.
(** upwind_tracer_conservative_form, l.660-718: the transported quantity is q*rho *)
Definition upwind_tracer_conservative_form (i : ibp) (outflow : bool) (test q rho : sfield) (u : vfield) : res R :=
  assemble_form i outflow
    (- dx (fun k => (sv q k * sv rho k) * dot (uv u k) (sg test k)))
    (dx (fun k => sv test k * div_su (product q rho) u k)) test (product q rho) u.
(** upwind_advection_form_1d, l.505-550, and upwind_continuity_form_1d, l.612-657: one
    dimension, integrated by parts once; the outflow option is checked against NEVER and then ignored *)
Definition upwind_advection_form_1d (i : ibp) (outflow : bool) (test q : sfield) (u : vfield) : res R :=
  if outflow && is_never i then Err ValueError
  else match i with
       | Once => Ok (- dx (fun k => (sv test k * ud u k + uv u k 0%nat * sg test k 0%nat) * sv q k) + upwind_flux test q u)
       | _ => Err NotImplementedError
       end.
(** l.612-657. *)
Definition upwind_continuity_form_1d (i : ibp) (outflow : bool) (test q : sfield) (u : vfield) : res R :=
  if outflow && is_never i then Err ValueError
  else match i with
       | Once => Ok (- dx (fun k => sg test k 0%nat * sv q k * uv u k 0%nat) + upwind_flux test q u)
       | _ => Err NotImplementedError
       end.

(** ** upwind_circulation_form, l.800-878, in the plane: perp(u) = (-u_1, u_0).  A planar vector field is
    a pair of scalar fields; n('+'), n('-') are the facet normals. *)
Definition sadd (a b : sfield) : sfield :=
  {| sv := fun k => sv a k + sv b k; sg := fun k i => sg a k i + sg b k i; sp := fun f => sp a f + sp b f; sm := fun f => sm a f + sm b f; sb := fun f => sb a f + sb b f |}.
(** Auxiliary, nothing in the code by itself. *)
Definition sopp (a : sfield) : sfield :=
  {| sv := fun k => - sv a k; sg := fun k i => - sg a k i; sp := fun f => - sp a f; sm := fun f => - sm a f; sb := fun f => - sb a f |}.
(** Auxiliary, nothing in the code by itself. *)
Definition planar := (sfield * sfield)%type.
(** inner(test, perp(ubar)) as a scalar field *)
(** Auxiliary, nothing in the code by itself. *)
Definition test_perp (test ubar : planar) : sfield := sadd (product (fst test) (sopp (snd ubar))) (product (snd test) (fst ubar)).
(** Upwind = 0.5*(sign(dot(ubar, n))+1) *)
(** Auxiliary, nothing in the code by itself. *)
Definition sign (a : R) : R := if Rlt_dec 0 a then 1 else if Rlt_dec a 0 then -1 else 0.
(** upwind_circulation_form, l.800-878. *)
Definition upwind (a : R) : R := 1/2 * (sign a + 1).
(** Auxiliary, nothing in the code by itself. *)
Definition normal_u (n : nat -> nat -> R) (u0 u1 : nat -> R) (f : nat) : R := u0 f * n f 0%nat + u1 f * n f 1%nat.
(** l.800-878. *)
Definition upwind_circulation_form (i : ibp) (np nm : nat -> nat -> R) (test q ubar : planar) : R :=
  let s := test_perp test ubar in
  let Up := fun f => upwind (normal_u np (sp (fst ubar)) (sp (snd ubar)) f) in
  let Um := fun f => upwind (normal_u nm (sm (fst ubar)) (sm (snd ubar)) f) in
  (* perp_u_upwind(q) *)
  let a0 := fun f => Up f * - sp (snd q) f + Um f * - sm (snd q) f in
  let a1 := fun f => Up f * sp (fst q) f + Um f * sm (fst q) f in
  (* inner(jump(s, n), perp_u_upwind(q)) *)
  let facet := dS_ (fun f => (sp s f * np f 0%nat + sm s f * nm f 0%nat) * a0 f + (sp s f * np f 1%nat + sm s f * nm f 1%nat) * a1 f) in
  match i with
  | Once => - dx (fun k => - sg s k 1%nat * sv (fst q) k + sg s k 0%nat * sv (snd q) k) - facet
  | _ => - dx (fun k => sv s k * (- sg (snd q) k 0%nat + sg (fst q) k 1%nat)) - facet
         (* jump(inner(test, perp(ubar))*perp(q), n) *)
         + dS_ (fun f => sp s f * (- sp (snd q) f * np f 0%nat + sp (fst q) f * np f 1%nat) + sm s f * (- sm (snd q) f * nm f 0%nat + sm (fst q) f * nm f 1%nat))
  end.
End Forms.

(** ** Cellwise constant fields *)
(** Auxiliary, nothing in the code by itself. *)
Record dg0_map := { cell_of : nat -> nat; plus_of : nat -> nat; minus_of : nat -> nat; bdry_of : nat -> nat }.
(** Auxiliary, nothing in the code by itself. *)
Definition dg0 (D : dg0_map) (x : nat -> R) : sfield :=
  {| sv := fun k => x (cell_of D k); sg := fun _ _ => 0; sp := fun f => x (plus_of D f); sm := fun f => x (minus_of D f); sb := fun b => x (bdry_of D b) |}.
(** Auxiliary, nothing in the code by itself. *)
Definition indicator (c : nat) : nat -> R := fun c' => if Nat.eqb c' c then 1 else 0.
(** Auxiliary, nothing in the code by itself. *)
Definition constant (a : R) : sfield := {| sv := fun _ => a; sg := fun _ _ => 0; sp := fun _ => a; sm := fun _ => a; sb := fun _ => a |}.

(** ** Which form DGUpwind builds (l.229-319).  None: no form is ever assigned, and l.319 raises
    (an UnboundLocalError). *)
Inductive eqn_type := Advective | Conservative | Circulation | VectorInvariant | TracerConservative.
(** What DGUpwind.__init__ calls, l.201-320. *)
Inductive built :=
| B1d_advection (outflow : bool) | B1d_continuity (outflow : bool)
| B_advection (outflow : bool) | B_manifold_advection (outflow : bool)
| B_continuity (outflow : bool) (all_but_last : bool) | B_manifold_continuity (outflow : bool) (all_but_last : bool)
| B_circulation | B_vector_invariant
| B_mass_weighted   (* the tracer form and the advective form; neither is given the outflow option *).
(** DGUpwind.__init__, l.201-320. *)
Definition dg_upwind (one_d : bool) (ty : eqn_type) (manifold outflow advective_then_flux : bool) : res (option built) :=
  if advective_then_flux && (match ty with Conservative => false | _ => true end) then Err ValueError
  else if one_d then
    if manifold then Err AssertionError
    else match ty with
         | Advective => Ok (Some (B1d_advection outflow))
         | Conservative => Ok (Some (B1d_continuity outflow))
         | _ => Ok None
         end
  else match ty with
       | Advective => Ok (Some (if manifold then B_manifold_advection outflow else B_advection outflow))
       | Conservative => Ok (Some (if manifold then B_manifold_continuity outflow advective_then_flux else B_continuity outflow advective_then_flux))
       | Circulation => if outflow then Err NotImplementedError else Ok (Some B_circulation)
       | VectorInvariant => if outflow then Err NotImplementedError else Ok (Some B_vector_invariant)
       | TracerConservative => Ok (Some B_mass_weighted)
       end.

(** ** Transporting velocities.  A form refers to velocity Functions by address; a labelled form is a
    list of terms with the value of the form for given contents of the Functions, and the address in
    its transporting_velocity label. *)
Section Velocities.
Variable U : Type.       (* velocities *)
Variable zero : U.       (* the contents of a new Function *)
(** l.58-160. *)
Record vterm := { t_value : (nat -> U) -> R; t_velocity : option nat }.
(** LabelledForm.form: the sum of the forms of all terms *)
(** fml LabelledForm.form, used by replace_form l.58-160. *)
Definition whole_form (l : list vterm) (env : nat -> U) : R := fold_right (fun t acc => t_value t env + acc) 0 l.
(** TransportMethod.replace_form, l.78-91: one term, the sum of the forms, labelled with the velocity of
    the first term *)
Definition replaced (l : list vterm) : option vterm :=
  match l with [] => None | t :: _ => Some {| t_value := whole_form l; t_velocity := t_velocity t |} end.
(** Timestepper.setup_transporting_velocity (timestepper.py l.121-150): the labelled Function is replaced
    by the velocity of the time stepper; no other Function created by the forms is ever assigned *)
Definition with_velocity (t : vterm) (uadv : U) : R :=
  t_value t (fun a => match t_velocity t with Some b => if Nat.eqb a b then uadv else zero | None => zero end).
(** upwind_*_form(domain, ...): a new Function at address a *)
(** The upwind_*_form functions, l.373-798. *)
Definition upwind_terms (value : U -> R) (a : nat) : list vterm := [{| t_value := fun env => value (env a); t_velocity := Some a |}].
(** vector_manifold_advection_form, l.721-757: L += ... for forms with another new Function, at address b;
    the added terms carry no label *)
Definition manifold_advection_terms (value corr1 corr2 : U -> R) (a b : nat) : list vterm :=
  (upwind_terms value a ++ [{| t_value := fun env => corr1 (env b); t_velocity := None |}; {| t_value := fun env => corr2 (env b); t_velocity := None |}])%list.
(** vector_manifold_continuity_form, l.760-797: afterwards all terms are labelled with the Function at b *)
Definition manifold_continuity_terms (value corr1 corr2 : U -> R) (a b : nat) : list vterm :=
  map (fun t => {| t_value := t_value t; t_velocity := Some b |}) (manifold_advection_terms value corr1 corr2 a b).
End Velocities.
