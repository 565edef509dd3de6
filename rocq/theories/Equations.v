(** Model of the equation sets: gusto/equations/prognostic_equations.py (linearisation),
    gusto/equations/shallow_water_equations.py and gusto/equations/boussinesq_equations.py.

    A residual is a list of labelled terms; a term is an integral over cell, interior facet and exterior facet
    points (the geometry of Transport.v) of an expression in the prognostic fields and the test functions.
    Simplification: dx and dx(degree=quad) are the same quadrature rule. *)
From Verif Require Import Base Vec Transport CommonForms.
From Coq Require Import String.
Open Scope R_scope.

(** a velocity: values and derivatives at cell points, u('+').n('+'), u('-').n('-') and u.n on facets *)
(** Auxiliary, nothing in the code by itself. *)
Record velocity_field := { u_at : nat -> vpoint; u_np : nat -> R; u_nm : nat -> R; u_nb : nat -> R }.
(** the prognostic variables (and test functions): u; D (p for Boussinesq); b (b_e with equivalent
    buoyancy); q_t *)
(** Auxiliary, nothing in the code by itself. *)
Record fields := { f_u : velocity_field; f_D : sfield; f_b : sfield; f_q : sfield }.
(** Auxiliary, nothing in the code by itself. *)
Definition at_ (s : sfield) (k : nat) : spoint := {| s_val := sv s k; s_grad := sg s k |}.
(** Auxiliary, nothing in the code by itself. *)
Definition vdot (d : nat) (a b : nat -> R) : R := rsum d (fun i => a i * b i).

(** ** Labelled terms.  t_deriv: ufl.derivative of the form at X_ref in direction of the trial function (None if
    X does not occur in the form: action raises IndexError); t_lin: the linearisation label, a form that may
    refer to X, X_ref, the trial and the test functions. *)
(** A labelled term of a residual; labels of core/labels.py. *)
Record eqterm := {
  t_labels : list string; t_field : string;
  t_form : fields -> fields -> R;
  t_deriv : option (fields -> fields -> fields -> R);
  t_lin : option (fields -> fields -> fields -> fields -> R) }.
(** Auxiliary, nothing in the code by itself. *)
Definition has_lab (l : string) (t : eqterm) : bool := mem l (t_labels t).
(** generate_linear_terms (prognostic_equations.py l.181-234) *)
Definition generate_linear_term (lmap : eqterm -> bool) (t : eqterm) : eqterm :=
  match t_lin t with
  | Some _ => t
  | None => if lmap t then
              match t_deriv t with
              | Some d => {| t_labels := t_labels t; t_field := t_field t; t_form := t_form t; t_deriv := t_deriv t;
                             t_lin := Some (fun _ Xref trial test => d Xref trial test) |}
              | None => t
              end
            else t
  end.
(** prognostic_equations.py l.186-234. *)
Definition generate_linear_terms (lmap : eqterm -> bool) (r : list eqterm) : list eqterm := List.map (generate_linear_term lmap) r.
(** linearise_equation_set (l.236-256): terms without a linearisation are dropped, the trial function is
    replaced by X *)
Definition linearise_term (Xref : fields) (t : eqterm) : option eqterm :=
  match t_lin t with
  | Some l => Some {| t_labels := t_labels t; t_field := t_field t; t_form := fun X test => l X Xref X test; t_deriv := None; t_lin := Some l |}
  | None => None
  end.
(** prognostic_equations.py l.237-259. *)
Definition linearise_equation_set (Xref : fields) (r : list eqterm) : list eqterm :=
  flat_map (fun t => match linearise_term Xref t with Some t' => [t'] | None => [] end) r.
(** the value of the terms that are not time derivatives, and of those that are *)
(** Auxiliary, nothing in the code by itself. *)
Definition spatial (r : list eqterm) (X test : fields) : R :=
  fold_right (fun t acc => (if has_lab "time_derivative" t then 0 else t_form t X test) + acc) 0 r.
(** Auxiliary, nothing in the code by itself. *)
Definition mass (r : list eqterm) (X test : fields) : R :=
  fold_right (fun t acc => (if has_lab "time_derivative" t then t_form t X test else 0) + acc) 0 r.

Section EquationSets.
Variables (G : geometry) (d : nat).
(** the circulation form of the mesh, the perp operator at each cell point (core/domain.py l.124, 131: perp in
    the plane, cross(outward normal, .) on the sphere) and the vertical unit vector *)
Variables (circ : nat -> (nat -> R) -> vpoint -> vpoint -> R) (perp : nat -> (nat -> R) -> nat -> R) (kvec : nat -> nat -> R).
Notation DX := (dx G).

(** generate_mass_terms (l.127-169), without mass-weighted tracers *)
Definition lin_of (f : fields -> fields -> R) : option (fields -> fields -> fields -> R) := Some (fun _ trial test => f trial test).
(** prognostic_equations.py l.135-176. *)
Definition mass_u := fun X T : fields => DX (fun k => vdot d (v_val (u_at (f_u X) k)) (v_val (u_at (f_u T) k))).
(** prognostic_equations.py l.135-176. *)
Definition mass_s (sel : fields -> sfield) := fun X T : fields => DX (fun k => sv (sel X) k * sv (sel T) k).
(** subject, prognostic and the other labels, e.g. shallow_water_equations.py l.122-178. *)
Definition term (labels : list string) (field : string) (f : fields -> fields -> R) der lin : eqterm :=
  {| t_labels := labels; t_field := field; t_form := f; t_deriv := der; t_lin := lin |}.
(** prognostic_equations.py l.135-176. *)
Definition mass_term_u := term ["time_derivative"%string] "u" mass_u (lin_of mass_u) None.
(** prognostic_equations.py l.135-176. *)
Definition mass_term_s name sel := term ["time_derivative"%string] name (mass_s sel) (lin_of (mass_s sel)) None.

(** ** Velocity transport (shallow_water_equations.py l.122-151, boussinesq_equations.py l.113-139): lm is the
    linearisation map.  A bad option: the message of the ValueError refers to self.u_transport_option,
    which does not exist. *)
Definition u_transport (opt : string) (lm : bool) : res (list eqterm) :=
  let vi := fun q u w : velocity_field => DX (fun k => vector_invariant d (circ k) (u_at w k) (u_at q k) (u_at u k)) in
  let vil := fun q ub w : velocity_field => DX (fun k => linear_vector_invariant d (circ k) (u_at w k) (u_at q k) (u_at ub k)) in
  let ke := fun q u w : velocity_field => DX (fun k => kinetic_energy d (u_at w k) (u_at q k) (u_at u k)) in
  let ci := fun q u w : velocity_field => DX (fun k => circ k (v_val (u_at w k)) (u_at q k) (u_at u k)) in
  let cil := fun q ub w : velocity_field => DX (fun k => linear_circulation (circ k) (v_val (u_at w k)) (u_at q k) (u_at ub k)) in
  let ad := fun q u w : velocity_field => DX (fun k => vector_advection d (v_val (u_at w k)) (u_at q k) (u_at u k)) in
  if String.eqb opt "vector_invariant_form" then
    Ok [term ["transport"%string] "u" (fun X T => vi (f_u X) (f_u X) (f_u T)) None
          (if lm then Some (fun _ Xr tr T => vil (f_u tr) (f_u Xr) (f_u T)) else None)]
  else if String.eqb opt "circulation_form" then
    Ok [term ["transport"%string] "u" (fun X T => ci (f_u X) (f_u X) (f_u T)) None
          (if lm then Some (fun _ Xr tr T => cil (f_u tr) (f_u Xr) (f_u T)) else None);
        term [] "u" (fun X T => ke (f_u X) (f_u X) (f_u T)) (Some (fun Xr tr T => ke (f_u tr) (f_u Xr) (f_u T) + ke (f_u Xr) (f_u tr) (f_u T))) None]
  else if String.eqb opt "vector_advection_form" then
    Ok [term ["transport"%string] "u" (fun X T => ad (f_u X) (f_u X) (f_u T)) (Some (fun Xr tr T => ad (f_u tr) (f_u Xr) (f_u T) + ad (f_u Xr) (f_u tr) (f_u T))) None]
  else Err AttributeError.

(** scalar transport terms: continuity and advection forms with their hand-coded linearisations *)
(** shallow_water_equations.py l.155-162. *)
Definition continuity_term name (sel : fields -> sfield) (lm : bool) :=
  term ["transport"%string] name (fun X T => DX (fun k => continuity d (sv (sel T) k) (at_ (sel X) k) (u_at (f_u X) k))) None
    (if lm then Some (fun _ Xr tr T => DX (fun k => linear_continuity d (sv (sel T) k) (at_ (sel tr) k) (u_at (f_u tr) k) (at_ (sel Xr) k) (u_at (f_u Xr) k))) else None).
(** shallow_water_equations.py l.474-490. *)
Definition advection_term name (sel : fields -> sfield) (lm : bool) :=
  term ["transport"%string] name (fun X T => DX (fun k => advection d (sv (sel T) k) (at_ (sel X) k) (u_at (f_u X) k))) None
    (if lm then Some (fun _ Xr tr T => DX (fun k => linear_advection d (sv (sel T) k) (at_ (sel tr) k) (u_at (f_u tr) k) (at_ (sel Xr) k) (u_at (f_u Xr) k))) else None).

(** ** Coriolis (shallow_water_equations.py l.193-228): the parameter at the cell points; xyz the coordinates,
    radius the smallest distance of a mesh vertex from the origin *)
Inductive rotation := Nonrotating | Sphere | Fplane | Betaplane | OtherRotation.
(** core/equation_configuration.py, ShallowWaterParameters. *)
Record coriolis_parameters := { Omega : R; f0 : R; beta : R }.
(** shallow_water_equations.py l.184-207. *)
Definition coriolis_f (o : rotation) (on_sphere : bool) (p : coriolis_parameters) (xyz : nat -> nat -> R) (radius : R) : res (option (nat -> R)) :=
  match o with
  | Nonrotating => Ok None
  | Sphere => if on_sphere then Ok (Some (fun k => 2 * Omega p * xyz k 2%nat / radius)) else Err AssertionError
  | Fplane => Ok (Some (fun _ => f0 p))
  | Betaplane => Ok (Some (fun k => f0 p + beta p * xyz k 1%nat))
  | OtherRotation => Err NotImplementedError
  end.
(** shallow_water_equations.py l.208-209. *)
Definition coriolis_form (f : nat -> R) := fun X T : fields => DX (fun k => f k * vdot d (perp k (v_val (u_at (f_u X) k))) (v_val (u_at (f_u T) k))).
(** shallow_water_equations.py l.208-216. *)
Definition coriolis_term (f : nat -> R) (lm : bool) : eqterm :=
  term ["coriolis"%string] "u" (coriolis_form f) None (if lm then Some (fun _ _ tr T => coriolis_form f tr T) else None).

(** ** ShallowWaterEquations._setup_residual (l.95-239).  topog: the values of topog_expr at the cell points. *)
Definition pressure_form (g : R) := fun X T : fields => - g * DX (fun k => v_div d (u_at (f_u T) k) * sv (f_D X) k).
(** shallow_water_equations.py l.218-224. *)
Definition topography_form (g : R) (B : nat -> R) := fun _ T : fields => DX (fun k => - g * v_div d (u_at (f_u T) k) * B k).
(** Auxiliary, nothing in the code by itself. *)
Definition opt_list {A B} (f : A -> B) (o : option A) : list B := match o with Some a => [f a] | None => [] end.
(** shallow_water_equations.py l.95-226. *)
Definition sw_setup (opt : string) (lm : bool) (g : R) (f : option (nat -> R)) (topog : option (nat -> R)) (tracers : list eqterm) : res (list eqterm) :=
  match u_transport opt lm with
  | Err e => Err e
  | Ok u_adv =>
      Ok ([mass_term_u; mass_term_s "D" f_D] ++ u_adv ++ [continuity_term "D" f_D lm] ++ tracers ++
          [term ["pressure_gradient"%string] "u" (pressure_form g) (lin_of (pressure_form g)) None] ++
          opt_list (fun f => coriolis_term f lm) f ++
          opt_list (fun B => term [] "u" (topography_form g B) None None) topog)%list
  end.
(** ShallowWaterEquations.__init__ (l.31-93); the argument space_names is not used (l.75) *)
Definition shallow_water (opt : string) (lmap : eqterm -> bool) (lm : bool) g f topog : res (list eqterm) :=
  match sw_setup opt lm g f topog [] with Err e => Err e | Ok r => Ok (generate_linear_terms lmap r) end.
(** LinearShallowWaterEquations (l.242-291), default linearisation map (all_terms) *)
Definition linear_shallow_water opt g f topog (Xref : fields) : res (list eqterm) :=
  match shallow_water opt (fun _ => true) true g f topog with Err e => Err e | Ok r => Ok (linearise_equation_set Xref r) end.

(** ** ThermalShallowWaterEquations (l.294-520) *)
Definition jump_ (s : sfield) (w : velocity_field) (f : nat) : R := sp s f * u_np w f + sm s f * u_nm w f.
(** UFL avg, used at shallow_water_equations.py l.413-470. *)
Definition avg_ (s : sfield) (f : nat) : R := 1/2 * (sp s f + sm s f).
(** -D*div(b*w)*dx + jump(b*w, n)*avg(D)*dS, the weak form of b grad D *)
(** shallow_water_equations.py l.420-468. *)
Definition weak_grad (b D : sfield) (w : velocity_field) : R :=
  - DX (fun k => sv D k * (sv b k * v_div d (u_at w k) + vdot d (v_val (u_at w k)) (sg b k)))
  + dS_ G (fun f => jump_ b w f * avg_ D f).
(** shallow_water_equations.py l.450-456. *)
Definition thermal_source (D b : sfield) (w : velocity_field) : R := weak_grad b D w + 1/2 * weak_grad D b w.
(** shallow_water_equations.py l.459-467. *)
Definition thermal_linear_source (D' b' Dbar bbar : sfield) (w : velocity_field) : R :=
  weak_grad bbar D' w + 1/2 * weak_grad Dbar b' w + 1/2 * weak_grad D' bbar w.
(** conditional(q < s, q, s), with the gradient of the branch taken *)
(** shallow_water_equations.py l.414-420. *)
Definition min_field (q s : sfield) : sfield :=
  {| sv := fun k => if Rlt_dec (sv q k) (sv s k) then sv q k else sv s k;
     sg := fun k i => if Rlt_dec (sv q k) (sv s k) then sg q k i else sg s k i;
     sp := fun f => if Rlt_dec (sp q f) (sp s f) then sp q f else sp s f;
     sm := fun f => if Rlt_dec (sm q f) (sm s f) then sm q f else sm s f;
     sb := fun f => if Rlt_dec (sb q f) (sb s f) then sb q f else sb s f |}.
(** shallow_water_equations.py l.421-429. *)
Definition moist_source (beta2 : R) (D b qv : sfield) (w : velocity_field) : R :=
  thermal_source D b w + beta2 * thermal_source D qv w.
(** shallow_water_equations.py l.433-447. *)
Definition moist_linear_source (beta2 : R) (D' b' qt' Dbar bbar qvbar : sfield) (w : velocity_field) : R :=
  thermal_linear_source D' b' Dbar bbar w + beta2 * thermal_linear_source D' qt' Dbar qvbar w.
(** shallow_water_equations.py l.302-372, 516-532. *)
Record moist_parameters := { beta2 : R; qsat : fields -> sfield (* compute_saturation *) }.
(** compute_saturation (l.522-539) as a field; the gradient is the chain rule *)
Definition saturation (q0 H nu g : R) (topog : sfield) (X : fields) : sfield :=
  let v := fun D B b => q0 * H / (D + B) * exp (nu * (1 - b / g)) in
  {| sv := fun k => v (sv (f_D X) k) (sv topog k) (sv (f_b X) k);
     sg := fun k i => v (sv (f_D X) k) (sv topog k) (sv (f_b X) k)
                      * (- (sg (f_D X) k i + sg topog k i) / (sv (f_D X) k + sv topog k) - nu / g * sg (f_b X) k i);
     sp := fun f => v (sp (f_D X) f) (sp topog f) (sp (f_b X) f);
     sm := fun f => v (sm (f_D X) f) (sm topog f) (sm (f_b X) f);
     sb := fun f => v (sb (f_D X) f) (sb topog f) (sb (f_b X) f) |}.
(** topogD: the projected topography as a field *)
(** shallow_water_equations.py l.374-512. *)
Definition thermal_setup (moist : option moist_parameters) opt (lm : bool) g f (topog : option (nat -> R)) (topogD : sfield) : res (list eqterm) :=
  match sw_setup opt lm g f topog [] with
  | Err e => Err e
  | Ok r =>
      let masses := match moist with None => [mass_term_s "b" f_b] | Some _ => [mass_term_s "b_e" f_b; mass_term_s "q_t" f_q] end in
      let qv := fun (m : moist_parameters) X => min_field (f_q X) (qsat m X) in
      let source := match moist with
        | None => term ["pressure_gradient"%string] "u" (fun X T => thermal_source (f_D X) (f_b X) (f_u T)) None
                    (Some (fun _ Xr tr T => thermal_linear_source (f_D tr) (f_b tr) (f_D Xr) (f_b Xr) (f_u T)))
        | Some m => term ["pressure_gradient"%string] "u" (fun X T => moist_source (beta2 m) (f_D X) (f_b X) (qv m X) (f_u T)) None
                    (* qvbar is made of q_t of X_ref and of the saturation value of X *)
                    (Some (fun X Xr tr T => moist_linear_source (beta2 m) (f_D tr) (f_b tr) (f_q tr) (f_D Xr) (f_b Xr) (min_field (f_q Xr) (qsat m X)) (f_u T)))
        end in
      let topog_form := fun X T => match moist with
        | None => weak_grad (f_b X) topogD (f_u T)
        | Some m => weak_grad (f_b X) topogD (f_u T) + beta2 m * weak_grad (qv m X) topogD (f_u T)
        end in
      (* the derivative of the topography term (dry case; the moist one, through qv, is not modelled) *)
      let topog_der := match moist with None => Some (fun (_ tr T : fields) => weak_grad (f_b tr) topogD (f_u T)) | Some _ => None end in
      Ok (masses ++ List.filter (fun t => negb (has_lab "pressure_gradient" t)) r ++ [source] ++
          [advection_term (match moist with None => "b"%string | Some _ => "b_e"%string end) f_b lm] ++
          (match moist with None => [] | Some _ => [advection_term "q_t" f_q lm] end) ++
          opt_list (fun _ => term [] "u" topog_form topog_der None) topog)%list
  end.
(** shallow_water_equations.py l.284-372. *)
Definition thermal_shallow_water moist opt (lmap : eqterm -> bool) (lm : bool) g f topog topogD : res (list eqterm) :=
  match thermal_setup moist opt lm g f topog topogD with Err e => Err e | Ok r => Ok (generate_linear_terms lmap r) end.
(** LinearThermalShallowWaterEquations (l.604-671) *)
Definition linear_thermal_shallow_water moist opt g f topog topogD (Xref : fields) : res (list eqterm) :=
  match thermal_shallow_water moist opt (fun _ => true) true g f topog topogD with Err e => Err e | Ok r => Ok (linearise_equation_set Xref r) end.

(** ** BoussinesqEquations (boussinesq_equations.py l.44-209); D is the pressure p *)
Definition cross_omega (Om : R) (u : nat -> R) (i : nat) : R := cross3 (fun j => match j with 2%nat => 2 * Om | _ => 0 end) u i.
(** boussinesq_equations.py l.43-216. *)
Definition boussinesq_setup (compressible : bool) (tracers : bool) opt (lm : bool) (cs : R) (Om : option R) : res (list eqterm) :=
  if tracers then Err NotImplementedError
  else match u_transport opt lm with
  | Err e => Err e
  | Ok u_adv =>
      let div_form := if compressible then fun X T : fields => cs ^ 2 * DX (fun k => sv (f_D T) k * v_div d (u_at (f_u X) k))
                      else fun X T => DX (fun k => sv (f_D T) k * (sv (f_D X) k - v_div d (u_at (f_u X) k))) in
      let pres := fun X T : fields => DX (fun k => - v_div d (u_at (f_u T) k) * sv (f_D X) k) in
      let grav := fun X T : fields => DX (fun k => - sv (f_b X) k * vdot d (v_val (u_at (f_u T) k)) (kvec k)) in
      let cori := fun Om => fun X T : fields => DX (fun k => vdot d (v_val (u_at (f_u T) k)) (cross_omega Om (v_val (u_at (f_u X) k)))) in
      Ok ([mass_term_u; mass_term_s "p" f_D; mass_term_s "b" f_b] ++ u_adv ++
          (if compressible then [advection_term "p" f_D lm] else []) ++ [advection_term "b" f_b lm] ++
          [term [if compressible then "divergence"%string else "incompressible"%string] "p" div_form None (Some (fun _ _ tr T => div_form tr T))] ++
          [term ["pressure_gradient"%string] "u" pres (lin_of pres) None] ++
          [term ["gravity"%string] "u" grav (lin_of grav) None] ++
          opt_list (fun Om => term ["coriolis"%string] "u" (cori Om) (lin_of (cori Om)) None) Om)%list
  end.
(** boussinesq_equations.py l.43-219. *)
Definition boussinesq compressible tracers opt (lmap : eqterm -> bool) lm cs Om : res (list eqterm) :=
  match boussinesq_setup compressible tracers opt lm cs Om with Err e => Err e | Ok r => Ok (generate_linear_terms lmap r) end.
(** LinearBoussinesqEquations, boussinesq_equations.py l.278-349. *)
Definition linear_boussinesq compressible opt cs Om (Xref : fields) : res (list eqterm) :=
  match boussinesq compressible false opt (fun _ => true) true cs Om with Err e => Err e | Ok r => Ok (linearise_equation_set Xref r) end.
End EquationSets.
