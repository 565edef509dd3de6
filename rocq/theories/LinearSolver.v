(** Model of the linear solver of the semi-implicit quasi-Newton scheme: QuasiNewtonLinearSolver
    (gusto/timestepping/semi_implicit_quasi_newton.py l.873-1037), the choice of solver prognostics (l.171-201), the presets of
    gusto/solvers/solver_presets.py and the Schur complement forms of gusto/equations/boussinesq_equations.py l.221-275 and
    gusto/equations/shallow_water_equations.py l.534-584.
    Residuals are those of Equations.v.  Simplifications: every time derivative has a linearisation (otherwise the constructor raises);
    Krylov solvers and hybridisation within the presets solve their systems exactly; 'ksp_type': 'preonly' is one application of the preconditioner. *)
From Verif Require Import Base Vec Transport CommonForms Equations.
From Coq Require Import String List.
Import ListNotations.
Open Scope R_scope.

(** Auxiliary, nothing in the code by itself. *)
Definition suml {A} (f : A -> R) (l : list A) : R := fold_right (fun a acc => f a + acc) 0 l.
(** t.has_label(time_derivative), l.930-966. *)
Definition is_mass (t : eqterm) : bool := has_lab "time_derivative" t.
(** implicit_terms = [incompressible, sponge], l.154 *)
Definition is_implicit (t : eqterm) : bool := has_lab "incompressible" t || has_lab "sponge" t.
(** t.has_label(linearisation), l.930-966. *)
Definition has_lin (t : eqterm) : bool := match t_lin t with Some _ => true | None => false end.
(** Auxiliary, nothing in the code by itself. *)
Definition lin_value (X Xr tr T : fields) (t : eqterm) : R := match t_lin t with Some l => l X Xr tr T | None => 0 end.

(** the dictionary of relaxation parameters: the one of the user, to which alpha is added for the other solver prognostics, l.922-928 *)
Definition lookup {A} (n : string) (l : list (string * A)) : option A := match find (fun p => String.eqb (fst p) n) l with Some p => Some (snd p) | None => None end.
(** l.922-928. *)
Definition fill_tau (alpha : R) (sp : list string) (tau : list (string * R)) : list (string * R) :=
  fold_left (fun dict n => match lookup n dict with Some _ => dict | None => (dict ++ [(n, alpha)])%list end) sp tau.
(** l.930-966. *)
Definition tau_of (dict : list (string * R)) (n : string) : R := match lookup n dict with Some v => v | None => 0 end.

(** The left-hand side, l.930-966 *)
Definition qn_lhs (r : list eqterm) (sp : list string) (tau : list (string * R)) (alpha dt : R) (X Xr tr T : fields) : R :=
  let dict := fill_tau alpha sp tau in
  suml (fun t => if is_mass t then lin_value X Xr tr T t else 0) r
  + suml (fun n =>
      suml (fun t => if has_lin t && negb (is_mass t) && String.eqb (t_field t) n && negb (is_implicit t) then tau_of dict n * dt * lin_value X Xr tr T t else 0) r
    + suml (fun t => if has_lin t && negb (is_mass t) && String.eqb (t_field t) n && is_implicit t then dt * lin_value X Xr tr T t else 0) r) sp.
(** The right-hand side, l.971-974, 985: action of the time derivatives on xrhs *)
Definition qn_rhs (r : list eqterm) (X Xr xrhs T : fields) : R := suml (fun t => if is_mass t then lin_value X Xr xrhs T t else 0) r.
(** zero_non_prognostics, l.1003-1020.  names: field_names of the equation set (u; D or p; b or b_e; q_t) *)
Definition zero_s : sfield := {| sv := fun _ => 0; sg := fun _ _ => 0; sp := fun _ => 0; sm := fun _ => 0; sb := fun _ => 0 |}.
(** Auxiliary, nothing in the code by itself. *)
Definition zero_u : velocity_field := {| u_at := fun _ => {| v_val := fun _ => 0; v_grad := fun _ _ => 0 |}; u_np := fun _ => 0; u_nm := fun _ => 0; u_nb := fun _ => 0 |}.
(** l.1003-1020. *)
Definition zero_non_prognostics (names sprog : list string) (x : fields) : fields :=
  let keep := fun i => mem (nth i names EmptyString) sprog in
  {| f_u := if keep 0%nat then f_u x else zero_u; f_D := if keep 1%nat then f_D x else zero_s;
     f_b := if keep 2%nat then f_b x else zero_s; f_q := if keep 3%nat then f_q x else zero_s |}.
(** The problem that is solved, l.979-989, 1022-1037: V is the space of increments and test functions (with the boundary conditions of u) *)
Definition qn_solution r names sprog tau alpha dt (X Xr : fields) (V : fields -> Prop) (xrhs dy : fields) : Prop :=
  V dy /\ forall T, V T -> qn_lhs r sprog tau alpha dt X Xr dy T = qn_rhs r X Xr (zero_non_prognostics names sprog xrhs) T.

(** Forcing, l.722-840: the implicit forcing xF at the state x (equations without hydrostatic terms) *)
Definition is_slow (t : eqterm) : bool := has_lab "transport" t || has_lab "diffusion" t || has_lab "physics" t.
(** Forcing, l.722-840. *)
Definition implicit_forcing (r : list eqterm) (alpha dt : R) (V : fields -> Prop) (x xF : fields) : Prop :=
  V xF /\ forall T, V T -> mass r xF T = suml (fun t => if is_mass t || is_slow t then 0 else - (if is_implicit t then dt else alpha * dt) * t_form t x T) r.

(** ** The choice of solver prognostics, l.171-201 *)
Definition choose_prognostics (names : list string) (tracers : option (list string)) (user : option (list string)) : res (list string) :=
  match user with
  | Some l => if forallb (fun n => mem n names) l then Ok l else Err AssertionError
  | None => match tracers with
            | Some tr => Ok (filter (fun n => negb (mem n tr)) names)
            | None => Ok names
            end
  end.

(** ** The presets: which fields are solved for together, hybridised_solver_parameters *)
(** The isinstance tests of solvers/solver_presets.py hybridised_solver_parameters. *)
Inductive equation_kind := CompressibleEuler | BoussinesqKind | ThermalKind | ShallowWaterKind | OtherKind.
(** the groups of field indices: those eliminated first, those hybridised and those left alone ('pc_type': 'none') *)
(** solvers/solver_presets.py hybridised_solver_parameters. *)
Record split := { eliminated : list nat; hybridised : list nat; untouched : list nat }.
(** l.48-51 *)
Definition tracer_indices (names sprog : list string) : list nat :=
  map fst (filter (fun p => negb (mem (snd p) sprog)) (combine (seq 0 (length names)) names)).
(** l.52: len(field_names) - len(solver_prognostics) > 0 *)
Definition some_tracers (names sprog : list string) : bool := Nat.ltb (length sprog) (length names).
Definition preset (k : equation_kind) (names sprog : list string) : res split :=
  match k with
  | CompressibleEuler => Ok {| eliminated := [2]; hybridised := [0; 1]; untouched := seq 3 (length names - 3) |}%nat  (* preconditioners.py l.735-757 *)
  | BoussinesqKind => Ok {| eliminated := [2]; hybridised := [0; 1]; untouched := [] |}%nat
  | ThermalKind => if some_tracers names sprog then Ok {| eliminated := [2]; hybridised := [0; 1]; untouched := tracer_indices names sprog |}%nat
                   else Ok {| eliminated := [2]; hybridised := [0; 1]; untouched := [] |}%nat
  | ShallowWaterKind => if some_tracers names sprog then Ok {| eliminated := []; hybridised := [0; 1]; untouched := tracer_indices names sprog |}%nat
                        else Ok {| eliminated := []; hybridised := seq 0 (length names); untouched := [] |}
  | OtherKind => Err NotImplementedError
  end.

Section Schur.
Variables (G : geometry) (d : nat).
Variables (perp : nat -> (nat -> R) -> nat -> R) (kvec : nat -> nat -> R).
Notation DX := (dx G).
(** tau_values.get(name, alpha) *)
(** tau_values.get, boussinesq_equations.py l.221-275. *)
Definition tau_get (tau : list (string * R)) (alpha : R) (n : string) : R := match lookup n tau with Some v => v | None => alpha end.
(** BoussinesqEquations.schur_complement_form, l.221-275.  With rotation: self.parameter does not exist *)
Definition boussinesq_schur (compressible : bool) (tau : list (string * R)) (alpha dt cs : R) (Om : option R) (mu : option (nat -> R)) (bbar : sfield)
  (u : velocity_field) (p : sfield) (w : velocity_field) (phi : sfield) : res R :=
  let beta_u := dt * tau_get tau alpha "u" in let beta_p := dt * tau_get tau alpha "p" in let beta_b := dt * tau_get tau alpha "b" in
  let b := fun k => - vdot d (kvec k) (v_val (u_at u k)) * vdot d (kvec k) (sg bbar k) * beta_b in
  let seqn := DX (fun k => vdot d (v_val (u_at w k)) (v_val (u_at u k))) - beta_u * DX (fun k => v_div d (u_at w k) * sv p k)
              - beta_u * DX (fun k => vdot d (v_val (u_at w k)) (kvec k) * b k) in
  let seqn := seqn + (if compressible then DX (fun k => sv phi k * sv p k) + beta_p * cs ^ 2 * DX (fun k => sv phi k * v_div d (u_at u k))
                      else DX (fun k => sv phi k * v_div d (u_at u k))) in
  let seqn := seqn + match mu with Some m => dt * DX (fun k => m k * vdot d (v_val (u_at w k)) (kvec k) * vdot d (v_val (u_at u k)) (kvec k)) | None => 0 end in
  match Om with Some _ => Err AttributeError | None => Ok seqn end.
(** ThermalShallowWaterEquations.schur_complement_form, l.534-584.  With equivalent buoyancy bref is still that of X_ref, since qvbar
    is zero when the form is made and bref += beta2*qvbar (l.567) is not an expression but an assignment to X_ref *)
Definition thermal_schur (tau : list (string * R)) (alpha dt : R) (f : option (nat -> R)) (Dref bref : sfield)
  (u : velocity_field) (D : sfield) (w : velocity_field) (phi : sfield) : R :=
  let beta_u := dt * tau_get tau alpha "u" in let beta_d := dt * tau_get tau alpha "D" in let beta_b := dt * tau_get tau alpha "b" in
  let b := fun k => - vdot d (v_val (u_at u k)) (sg bref k) * beta_b in
  DX (fun k => vdot d (v_val (u_at w k)) (v_val (u_at u k)))
  + beta_u * weak_grad G d bref D w
  - beta_u * (1/2) * DX (fun k => sv Dref k * b k * v_div d (u_at w k))
  + beta_u * (1/2) * weak_grad G d D bref w
  + DX (fun k => sv phi k * sv D k)
  + beta_d * DX (fun k => sv phi k * (sv Dref k * v_div d (u_at u k) + vdot d (v_val (u_at u k)) (sg Dref k)))
  + match f with Some f => beta_u * DX (fun k => f k * vdot d (v_val (u_at w k)) (perp k (v_val (u_at u k)))) | None => 0 end.

(** ** The Schur field split of the presets (pc_fieldsplit_schur_fact_type full): eliminate b with the block of the operator, solve for (u, p) with the
    auxiliary form, back-substitute.  Blocks of the operator: its values on fields with zero components. *)
(** Auxiliary, nothing in the code by itself. *)
Definition only_b (b : sfield) : fields := {| f_u := zero_u; f_D := zero_s; f_b := b; f_q := zero_s |}.
(** Auxiliary, nothing in the code by itself. *)
Definition only_up (u : velocity_field) (p : sfield) : fields := {| f_u := u; f_D := p; f_b := zero_s; f_q := zero_s |}.
(** Auxiliary, nothing in the code by itself. *)
Definition together (u : velocity_field) (p b : sfield) : fields := {| f_u := u; f_D := p; f_b := b; f_q := zero_s |}.
(** solvers/solver_presets.py: pc_fieldsplit_type schur, fact_type full. *)
Definition schur_split (A : fields -> fields -> R) (rhs : fields -> R) (S : velocity_field -> sfield -> velocity_field -> sfield -> res R)
  (Vu : velocity_field -> Prop) (Vp Vb : sfield -> Prop) (u : velocity_field) (p b : sfield) : Prop :=
  Vu u /\ Vp p /\ Vb b /\ exists y, Vb y /\
  (forall c, Vb c -> A (only_b y) (only_b c) = rhs (only_b c)) /\
  (forall w q, Vu w -> Vp q -> S u p w q = Ok (rhs (only_up w q) - A (only_b y) (only_up w q))) /\
  (forall c, Vb c -> A (only_b b) (only_b c) = rhs (only_b c) - A (only_up u p) (only_b c)).
End Schur.
