(** Model of gusto/timestepping/semi_implicit_quasi_newton.py: SemiImplicitQuasiNewton
    (l.31-711), Forcing (l.714-868) and QuasiNewtonLinearSolver (l.871-1037).

    A state assigns a coefficient vector to every prognostic name; operators (terms of
    the residual, transport and physics schemes) are arbitrary functions.  The mass
    solver and the linear solver are arbitrary functions about which the theorems assume
    only that they solve their linear systems.  Not modelled: boundary conditions,
    the consistent-metric option, simultaneous transport of several fields. *)
From Verif Require Import Base Vec.
From Coq Require Import String.
Open Scope R_scope.

(** The mixed fields x(name), l.410-427. *)
Definition state (I : Type) := string -> vec I.
(** Auxiliary, nothing in the code by itself. *)
Definition sadd {I} (x y : state I) : state I := fun n => x n +v y n.
(** Auxiliary, nothing in the code by itself. *)
Definition ssub {I} (x y : state I) : state I := fun n => x n -v y n.
(** Auxiliary, nothing in the code by itself. *)
Definition sscal {I} (a : R) (x : state I) : state I := fun n => a *v x n.
(** Auxiliary, nothing in the code by itself. *)
Definition szero {I} : state I := fun _ => vzero.
(** x(name).assign(v) *)
(** Auxiliary, nothing in the code by itself. *)
Definition sset {I} (x : state I) (n : string) (v : vec I) : state I := fun m => if String.eqb m n then v else x m.

(** ** Forcing.__init__, l.724-826: the forms *)
Inductive flabel := Time_derivative | Hydrostatic | Incompressible | Sponge | Transport | Diffusion | Physics.
(** Auxiliary, nothing in the code by itself. *)
Definition flabel_eqb (a b : flabel) : bool :=
  match a, b with
  | Time_derivative, Time_derivative | Hydrostatic, Hydrostatic | Incompressible, Incompressible
  | Sponge, Sponge | Transport, Transport | Diffusion, Diffusion | Physics, Physics => true
  | _, _ => false
  end.
(** A term: its labels and its value at a given subject. *)
(** The terms of equation.residual, l.745-793. *)
Record fterm (I : Type) := mk_fterm { flabels : list flabel; fval : state I -> state I }.
Arguments mk_fterm {I}. Arguments flabels {I}. Arguments fval {I}.

(** any(t.has_label( *ls, return_tuple=True)) *)
(** Auxiliary, nothing in the code by itself. *)
Definition has_any {I} (ls : list flabel) (t : fterm I) : bool :=
  existsb (fun l => existsb (flabel_eqb l) (flabels t)) ls.
(** the value at x of label_map(p, replace_subject(x), drop) *)
(** Used at l.745-793. *)
Definition fsum {I} (p : fterm I -> bool) (ts : list (fterm I)) (x : state I) : state I :=
  fold_right (fun t acc => if p t then sadd (fval t x) acc else acc) szero ts.

(** self.implicit_terms = [incompressible, sponge], l.160 *)
Definition implicit_terms : list flabel := [Incompressible; Sponge].

Section Forcing.
  Context {I : Type}.
  Variables (residual : list (fterm I)) (alpha dt : R).
  (** l.755-758 *)
  Definition forcing_terms : list (fterm I) := filter (fun t => negb (has_any [Transport; Diffusion; Physics] t)) residual.
  (** l.762-765: the left-hand side, used for both *)
  Definition forcing_lhs (x : state I) : state I := fsum (has_any [Time_derivative]) forcing_terms x.
  (** l.767-773, 791-795 *)
  Definition L_explicit (x0 : state I) : state I :=
    let base := sscal (- ((1 - alpha) * dt))
                  (fsum (fun t => negb (has_any (Time_derivative :: Hydrostatic :: implicit_terms) t)) forcing_terms x0) in
    if existsb (has_any [Hydrostatic]) forcing_terms
    then sadd base (fsum (has_any [Hydrostatic]) forcing_terms x0)
    else base.
  (** l.776-788, 797-800 *)
  Definition L_implicit (x0 : state I) : state I :=
    let base := ssub (sscal (- (alpha * dt))
                  (fsum (fun t => negb (has_any (Time_derivative :: Hydrostatic :: implicit_terms) t)) forcing_terms x0))
                  (sscal dt (fsum (has_any implicit_terms) forcing_terms x0)) in
    if existsb (has_any [Hydrostatic]) forcing_terms
    then ssub base (fsum (has_any [Hydrostatic]) forcing_terms x0)
    else base.
End Forcing.

(** ** The timestepper *)
(** The arguments of l.38-391. *)
Record siqn (I : Type) := mk_siqn {
  residual_ : list (fterm I);
  names : list string;                      (* equation.field_names *)
  solver_prognostics : list string;
  alpha_ : R; dt_ : R; beta : R;            (* beta = physics_beta *)
  num_outer : nat; num_inner : nat; accelerator : bool;
  (** solution of the mass problem: Forcing.solvers *)
  mass_solve : state I -> state I;
  (** the quasi-Newton linear problem: dy for a given right-hand side *)
  linear_solve : state I -> state I;
  (** active_transport: the scheme of each field as a function of the transporting
      velocity (which depends on x_n and x_{n+1}) and its input *)
  transports : list (string * (state I -> state I -> vec I -> vec I));
  (** the predictor: name and the factor (1 - (1-alpha) dt div u_n) applied to a field *)
  predictor : option (string * (state I -> vec I -> vec I));
  slow_physics : list (state I -> state I);
  fast_physics : list (state I -> state I);
  inner_physics : list (state I -> state I);
  final_steps : list (state I -> state I -> state I);  (* auxiliary, diffusion, final physics: x_n, x_{n+1} *)
}.
Arguments mk_siqn {I}. Arguments residual_ {I}. Arguments names {I}. Arguments solver_prognostics {I}.
Arguments alpha_ {I}. Arguments dt_ {I}. Arguments beta {I}. Arguments num_outer {I}. Arguments num_inner {I}.
Arguments accelerator {I}. Arguments mass_solve {I}. Arguments linear_solve {I}. Arguments transports {I}.
Arguments predictor {I}. Arguments slow_physics {I}. Arguments fast_physics {I}. Arguments inner_physics {I}.
Arguments final_steps {I}.

Section Step.
  Context {I : Type}.
  Variable c : siqn I.

  (** Forcing.apply, l.828-851 *)
  Definition apply_explicit (x_in x_nl : state I) : state I :=
    sadd x_in (mass_solve c (L_explicit (residual_ c) (alpha_ c) (dt_ c) x_nl)).
  (** Forcing.apply, l.826-849. *)
  Definition apply_implicit (x_in x_nl : state I) : state I :=
    sadd x_in (mass_solve c (L_implicit (residual_ c) (alpha_ c) (dt_ c) x_nl)).

  (** Forcing.zero_non_wind_terms, l.853-868 *)
  Definition zero_non_wind (x_in x_out : state I) : state I :=
    fold_left (fun out n => if String.eqb n "u" then out else sset out n (x_in n)) (names c) x_out.

  (** QuasiNewtonLinearSolver.zero_non_prognostics, l.1001-1016 *)
  Definition zero_non_prognostics (r : state I) : state I :=
    fold_left (fun out n => if existsb (String.eqb n) (solver_prognostics c) then out else sset out n vzero) (names c) r.
  (** solve, l.1019-1037 *)
  Definition qn_solve (r : state I) : state I := linear_solve c (zero_non_prognostics r).

  (** transport_fields, l.467-512 *)
  Definition transport_fields (xn xnp1 xstar xp : state I) : state I :=
    fold_left (fun xp ns =>
        let '(name, scheme) := ns in
        match predictor c with
        | Some (pname, pre) =>
            if String.eqb name pname
            then let fin := pre xn (xstar name) in
                 sset xp name (xstar name +v scheme xn xnp1 fin -v fin)
            else sset xp name (scheme xn xnp1 (xstar name))
        | None => sset xp name (scheme xn xnp1 (xstar name))
        end) (transports c) xp.

  (** x(scheme.field_name) of a list of physics schemes applied one after the other *)
  (** l.589-594, 629-635, 680-684. *)
  Definition apply_all_physics (ps : list (state I -> state I)) (x : state I) : state I :=
    fold_left (fun y p => p y) ps x.

  (** l.595-617: the state xstar before the outer loop *)
  Definition compute_xstar (xn : state I) : state I :=
    let after_slow := apply_all_physics (slow_physics c) xn in
    let xstar := apply_explicit after_slow xn in
    if Req_EM_T (beta c) 1 then xstar
    else fold_left (fun xs p => sadd xs (sscal (1 - beta c) (ssub (p xn) xn))) (inner_physics c) xstar.

  (** l.640-664: the right-hand side of inner iteration [inner] *)
  Definition inner_rhs (inner : nat) (xp after_fast xnp1 : state I) : state I :=
    let xrhs := sadd (apply_implicit xp xnp1) (ssub after_fast xp) in
    let xrhs := if (Nat.ltb 0 inner && accelerator c)%bool then zero_non_wind xnp1 xrhs else xrhs in
    let xrhs := if Req_EM_T (beta c) 0 then xrhs
                else fold_left (fun r p => sadd r (sscal (beta c) (ssub (p xnp1) xnp1))) (inner_physics c) xrhs in
    ssub xrhs xnp1.
  (** l.639-672: inner iteration number [inner] *)
  Definition inner_step (inner : nat) (xp after_fast xnp1 : state I) : state I :=
    sadd xnp1 (qn_solve (inner_rhs inner xp after_fast xnp1)).
  (** l.637-664. *)
  Fixpoint inner_loop (n k : nat) (xp after_fast xnp1 : state I) : state I :=
    match n with
    | O => xnp1
    | S m => inner_loop m (S k) xp after_fast (inner_step k xp after_fast xnp1)
    end.

  (** copy_active_tracers, l.451-465; l.160-209: non_solver_prognostics *)
  Definition copy_active_tracers (x_in x_out : state I) : state I :=
    fold_left (fun out n => if existsb (String.eqb n) (solver_prognostics c) then out else sset out n (x_in n)) (names c) x_out.

  (** l.621-677: one outer iteration on (xp, xnp1); xp persists, so that fields without
      a transport scheme keep their value *)
  Definition outer_step (xn xstar : state I) (s : state I * state I) : state I * state I :=
    let '(xp, xnp1) := s in
    let xp := transport_fields xn xnp1 xstar xp in
    let after_fast := apply_all_physics (fast_physics c) xp in
    let xnp1 := inner_loop (num_inner c) 0 xp after_fast xnp1 in
    (xp, copy_active_tracers after_fast xnp1).

  (** timestep, l.567-692; x_{n+1} starts as x_n (self.x.update copies it, timestepper.py
      l.244) *)
  Definition siqn_timestep (xn : state I) : state I :=
    let xstar := compute_xstar xn in
    let '(_, xnp1) := niter (num_outer c) (outer_step xn xstar) (xstar, xn) in
    fold_left (fun x f => f xn x) (final_steps c) xnp1.
End Step.

(** ** Spin-up, l.535-565, 588-593 *)
Record spin := mk_spin { a_forcing : R; a_solver : R; begun : bool; spin_done : bool }.
(** __init__, l.159, 228-233 and QuasiNewtonLinearSolver l.917 *)
Definition spin_init (alpha : R) : spin := mk_spin alpha alpha false false.
(** l.531-561, 582-585. *)
Definition spin_step (alpha : R) (spinup_steps step : nat) (s : spin) : spin :=
  if (Nat.ltb step (spinup_steps + 1) && negb (begun s))%bool then mk_spin 1 1 true (spin_done s)
  else if (Nat.leb (spinup_steps + 1) step && negb (spin_done s))%bool then mk_spin alpha alpha (begun s) true
  else s.
(** The values of alpha used by n consecutive steps numbered from k (run sets step to 1,
    or to the checkpointed step: timestepper.py l.205-228, 250). *)
Fixpoint spin_run (alpha : R) (spinup_steps : nat) (k n : nat) (s : spin) : list (R * R) * spin :=
  match n with
  | O => ([], s)
  | S m => let s' := spin_step alpha spinup_steps k s in
           let '(l, s'') := spin_run alpha spinup_steps (S k) m s' in
           ((a_forcing s', a_solver s') :: l, s'')
  end.
(** alpha_u, l.164-167: the weight in the transporting velocity, never changed *)
Definition alpha_u (off_centred_u : bool) (alpha : R) : R := if off_centred_u then alpha else 1 / 2.
(** transporting_velocity, l.402-408: xn('u') + alpha_u*(xnp1('u') - xn('u')) *)
Definition transporting_velocity {I} (off_centred_u : bool) (alpha : R) (xn xnp1 : state I) : vec I :=
  xn "u"%string +v alpha_u off_centred_u alpha *v (xnp1 "u"%string -v xn "u"%string).

(** ** Reference profiles, l.514-533 and run, l.694-711 *)
Open Scope Q_scope.
Record refs (X : Type) := mk_refs {
  last_update : option Q;      (* last_ref_update_time; timestepper.py l.35 *)
  to_update : bool;            (* to_update_ref_profile *)
  initialised : bool;          (* reference_profiles_initialised *)
  x_ref : X;                   (* equation.X_ref *)
  solver_ref : X;              (* the profile the linear solver's matrix was built with *)
}.
Arguments mk_refs {X}. Arguments last_update {X}. Arguments to_update {X}. Arguments initialised {X}.
Arguments x_ref {X}. Arguments solver_ref {X}.

(** set_reference_profiles, timestepper.py l.269-308 *)
Definition set_refs {X} (x : X) (last : option Q) (r : refs X) : refs X :=
  mk_refs last (to_update r) true x (solver_ref r).

(** update_reference_profiles, l.514-533, at time t in state xn.  float + freq > None is
    a TypeError. *)
Definition ref_update {X} (freq : option Q) (t : Q) (xn : X) (r : refs X) : res (refs X) :=
  match freq with
  | Some f =>
      match last_update r with
      | None => Err TypeError
      | Some l => if negb (Qle_bool (t + f) l)
                  then Ok (mk_refs (Some t) (to_update r) (initialised r) xn xn)
                  else Ok r
      end
  | None => if to_update r then Ok (mk_refs (last_update r) false (initialised r) (x_ref r) (x_ref r)) else Ok r
  end.

(** run, l.694-711, up to the start of the time loop; [chk]: the reference profile and
    last update time read from the checkpoint (timestepper.py l.219-223). *)
Definition ref_run_start {X} (freq : option Q) (t dt : Q) (pick_up : option (X * option Q)) (r : refs X) : res (refs X) :=
  match pick_up with
  | None =>
      match freq with
      | None => if initialised r then Ok (mk_refs (last_update r) true (initialised r) (x_ref r) (solver_ref r)) else Err AssertionError
      | Some _ => Ok (mk_refs (Some (t - dt)) (to_update r) (initialised r) (x_ref r) (solver_ref r))
      end
  | Some (x, last) =>
      let r := match freq with None => mk_refs (last_update r) true (initialised r) (x_ref r) (solver_ref r) | Some _ => r end in
      Ok (set_refs x last r)
  end.

(** n steps of the time loop from time t, states xs k at the start of step k: the times
    at which X_ref was replaced, and the final record *)
(** l.515-530, 578. *)
Fixpoint ref_loop {X} (freq : option Q) (n : nat) (t dt : Q) (xs : nat -> X) (r : refs X) : res (refs X) :=
  match n with
  | O => Ok r
  | S m => match ref_update freq t (xs O) r with
           | Err e => Err e
           | Ok r' => ref_loop freq m (t + dt) dt (fun k => xs (S k)) r'
           end
  end.
