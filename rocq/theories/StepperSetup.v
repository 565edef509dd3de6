(** Model of the constructors of SemiImplicitQuasiNewton (gusto/timestepping/semi_implicit_quasi_newton.py
    l.145-391), TRBDF2QuasiNewton (tr_bdf2_quasi_newton.py l.131-330) and Timestepper (timestepper.py l.321-350):
    which configurations they accept, what they raise for the others, and which schemes are set up for what
    (setup_scheme: semi_implicit_quasi_newton.py l.428-449, tr_bdf2_quasi_newton.py l.368-389).

    Not modelled here: the linear solver's own checks (LinearSolver.v), the replacement of forms (SpatialSetup.v),
    the field containers (Fields.v), the check that solver_prognostics is a list (it is one by typing). *)
From Verif Require Import Base Vec.
From Coq Require Import String.
From Verif Require Terms Siqn.
Import Terms (target(..), lterm, setup_terms).
Close Scope Q_scope.
Open Scope string_scope.

(** A time discretisation object: its identity, its field_name, nlevels, and whether it is an
    ExplicitTimeDiscretisation. *)
(** Attributes read at semi_implicit_quasi_newton.py l.145-391. *)
Record scheme := mk_scheme { s_id : nat; s_field : target; s_nlevels : nat; s_explicit : bool }.
(** A spatial method: its variable and its term_label (transport, diffusion, or one of the directional labels). *)
(** semi_implicit_quasi_newton.py l.242-344. *)
Inductive mlabel := MTransport | MDiffusion | MOther.
(** Auxiliary, nothing in the code by itself. *)
Definition mlabel_eqb (a b : mlabel) : bool :=
  match a, b with MTransport, MTransport | MDiffusion, MDiffusion | MOther, MOther => true | _, _ => false end.
(** semi_implicit_quasi_newton.py l.242-344. *)
Record smethod := mk_smethod { m_variable : string; m_label : mlabel }.
(** A physics parametrisation: its label and its explicit_only attribute (None: no such attribute). *)
(** equation.physics_parametrisations, semi_implicit_quasi_newton.py l.302-330. *)
Record param := mk_param { p_label : string; p_explicit_only : option bool }.
(** An auxiliary equation: its field_name and whether it has an attribute field_names. *)
(** semi_implicit_quasi_newton.py l.346-352. *)
Record auxeq := mk_auxeq { a_field : string; a_many : bool }.

(** Auxiliary, nothing in the code by itself. *)
Definition mem (x : string) (l : list string) : bool := existsb (String.eqb x) l.
(** Auxiliary, nothing in the code by itself. *)
Definition check (b : bool) (e : exn) : res unit := if b then Ok tt else Err e.
(** A loop of checks: stops at the first failure. *)
(** Auxiliary, nothing in the code by itself. *)
Fixpoint check_all {A} (f : A -> res unit) (l : list A) : res unit :=
  match l with [] => Ok tt | x :: tl => do _ <- f x; check_all f tl end.

(** "Determine prognostics for solver": SIQN l.172-200, TR-BDF2 l.153-181.  Result: solver_prognostics and
    non_solver_prognostics. *)
Definition solver_split (names : list string) (tracers : option (list string)) (user : option (list string))
  : res (list string * list string) :=
  match user with
  | Some sp => do _ <- check_all (fun p => check (mem p names) AssertionError) sp;
               Ok (sp, filter (fun f => negb (mem f sp)) names)
  | None => match tracers with
            | Some ts => Ok (filter (fun f => negb (mem f ts)) names, ts)
            | None => Ok (names, [])
            end
  end.

(** "Consistent metric term": SIQN l.240-258, TR-BDF2 l.219-236 *)
Definition metric_check (consistent_metric : bool) (names : list string) (transports : list scheme) : res unit :=
  if consistent_metric then
    do _ <- check (mem "theta" names) ValueError;
    do _ <- check (mem "z" names) ValueError;
    match transports with
    | [] => Err IndexError
    | s :: _ => match s_field s with
                | OneField f => check (f =? "z") ValueError
                | _ => Err ValueError
                end
    end
  else Ok tt.

(** the methods of a variable: subfield == method.variable and method.term_label == label *)
(** semi_implicit_quasi_newton.py l.242-344. *)
Definition methods_for (l : mlabel) (v : string) (ms : list smethod) : list smethod :=
  filter (fun m => (v =? m_variable m) && mlabel_eqb (m_label m) l) ms.
(** semi_implicit_quasi_newton.py l.242-344. *)
Definition has_method (l : mlabel) (v : string) (ms : list smethod) : bool :=
  match methods_for l v ms with [] => false | _ => true end.

(** An entry (field_name, scheme) of active_transport: one name or a list of names. *)
(** semi_implicit_quasi_newton.py l.264-300. *)
Definition entry := (target * scheme)%type.

(** One iteration of the loop SIQN l.269-300.  A single field gets one entry per matching method. *)
Definition siqn_transport (names : list string) (ms : list smethod) (s : scheme) : res (list entry) :=
  do _ <- check (Nat.eqb (s_nlevels s) 1) AssertionError;
  match s_field s with
  | FieldList fs =>
      do _ <- check_all (fun f => do _ <- check (mem f names) AssertionError; check (has_method MTransport f ms) AssertionError) fs;
      Ok [(s_field s, s)]
  | OneField f =>
      do _ <- check (mem f names) AssertionError;
      do _ <- check (has_method MTransport f ms) AssertionError;
      Ok (map (fun _ => (s_field s, s)) (methods_for MTransport f ms))
  | WholeSystem => Err AssertionError   (* None in field_names is False *)
  end.
(** semi_implicit_quasi_newton.py l.264-300. *)
Fixpoint siqn_transports (names : list string) (ms : list smethod) (l : list scheme) : res (list entry) :=
  match l with [] => Ok [] | s :: tl => do e <- siqn_transport names ms s; do more <- siqn_transports names ms tl; Ok (e ++ more)%list end.

(** The loop TR-BDF2 l.245-256: lists are not accepted (a list is not an element of field_names). *)
Definition tr_transport (names : list string) (ms : list smethod) (s : scheme) : res (list entry) :=
  do _ <- check (Nat.eqb (s_nlevels s) 1) AssertionError;
  match s_field s with
  | OneField f =>
      do _ <- check (mem f names) AssertionError;
      do _ <- check (has_method MTransport f ms) AssertionError;
      Ok (map (fun _ => (s_field s, s)) (methods_for MTransport f ms))
  | _ => Err AssertionError
  end.
(** tr_bdf2_quasi_newton.py l.130-343. *)
Fixpoint tr_transports (names : list string) (ms : list smethod) (l : list scheme) : res (list entry) :=
  match l with [] => Ok [] | s :: tl => do e <- tr_transport names ms s; do more <- tr_transports names ms tl; Ok (e ++ more)%list end.

(** Physics schemes: SIQN l.326-332, TR-BDF2 l.207-212 *)
Definition physics_check (ps : param * scheme) : res unit :=
  do _ <- check (Nat.eqb (s_nlevels (snd ps)) 1) AssertionError;
  match p_explicit_only (fst ps) with
  | Some true => check (s_explicit (snd ps)) AssertionError
  | _ => Ok tt
  end.

(** Diffusion: SIQN l.336-347, TR-BDF2 l.258-269 *)
Definition diffusion_check (names : list string) (ms : list smethod) (s : scheme) : res unit :=
  do _ <- check (Nat.eqb (s_nlevels s) 1) AssertionError;
  match s_field s with
  | OneField f => do _ <- check (mem f names) AssertionError; check (has_method MDiffusion f ms) AssertionError
  | _ => Err AssertionError
  end.

(** Auxiliary equations: SIQN l.349-353 *)
Definition aux_check (a : auxeq * scheme) : res unit := check (negb (a_many (fst a))) AssertionError.

(** The arguments of the SIQN constructor that matter here; the optional lists of schemes are empty when not given. *)
(** semi_implicit_quasi_newton.py l.38-145. *)
Record siqn_args := mk_siqn_args {
  q_names : list string; q_tracers : option (list string); q_solver : option (list string);
  q_metric : bool; q_methods : list smethod; q_transports : list scheme;
  q_slow : list (param * scheme); q_fast : list (param * scheme); q_final : list (param * scheme); q_inner : list (param * scheme);
  q_diffusions : list scheme; q_aux : list (auxeq * scheme) }.
(** What the constructed object holds. *)
(** semi_implicit_quasi_newton.py l.145-391. *)
Record stepper := mk_stepper {
  z_solver : list string; z_non_solver : list string;
  z_transport : list entry; z_diffusion : list scheme; z_physics : list (param * scheme) }.

(** all_physics_schemes, SIQN l.320-323 *)
Definition q_physics (q : siqn_args) : list (param * scheme) := (q_slow q ++ q_fast q ++ q_final q ++ q_inner q)%list.

(** SemiImplicitQuasiNewton.__init__, l.145-361, in the order of the code *)
Definition siqn_construct (q : siqn_args) : res stepper :=
  do sp <- solver_split (q_names q) (q_tracers q) (q_solver q);
  do _ <- metric_check (q_metric q) (q_names q) (q_transports q);
  do tr <- siqn_transports (q_names q) (q_methods q) (q_transports q);
  do _ <- check_all physics_check (q_physics q);
  do _ <- check_all (diffusion_check (q_names q) (q_methods q)) (q_diffusions q);
  do _ <- check_all aux_check (q_aux q);
  Ok (mk_stepper (fst sp) (snd sp) tr (q_diffusions q) (q_physics q)).

(** The arguments of the TR-BDF2 constructor: fast physics None or a list. *)
(** tr_bdf2_quasi_newton.py l.33-130. *)
Record tr_args := mk_tr_args {
  r_names : list string; r_tracers : option (list string); r_solver : option (list string);
  r_metric : bool; r_methods : list smethod; r_transports : list scheme;
  r_slow : list (param * scheme); r_fast : option (list (param * scheme)); r_final : list (param * scheme);
  r_diffusions : list scheme }.
(** TRBDF2QuasiNewton.__init__, l.131-271 *)
Definition tr_construct (r : tr_args) : res stepper :=
  do sp <- solver_split (r_names r) (r_tracers r) (r_solver r);
  do _ <- match r_fast r with Some _ => Err NotImplementedError | None => Ok tt end;
  let phys := (r_slow r ++ [] ++ r_final r)%list in
  do _ <- check_all physics_check phys;
  do _ <- metric_check (r_metric r) (r_names r) (r_transports r);
  do tr <- tr_transports (r_names r) (r_methods r) (r_transports r);
  do _ <- check_all (diffusion_check (r_names r) (r_methods r)) (r_diffusions r);
  Ok (mk_stepper (fst sp) (snd sp) tr (r_diffusions r) phys).

(** Timestepper.__init__, timestepper.py l.337-348: the check of the parametrisations' scheme *)
Definition timestepper_construct (s : scheme) (physics : option (list param)) : res unit :=
  match physics with
  | Some ps => if Nat.ltb 1 (List.length ps) then check (s_explicit s) AssertionError else Ok tt
  | None => Ok tt
  end.

(** ** setup_scheme: SIQN l.428-449, TR-BDF2 l.368-389.  Scheme objects are mutable: setup stores the selected
    terms in the object and may overwrite its field_name (time_discretisation.py l.147-215).  The store gives the
    current field_name and, once set up, the terms of each object. *)
Record object := mk_object { o_field : target; o_terms : option (list lterm) }.
(** Auxiliary, nothing in the code by itself. *)
Definition store := nat -> object.
(** Auxiliary, nothing in the code by itself. *)
Definition upd (m : store) (i : nat) (o : object) : store := fun j => if Nat.eqb j i then o else m j.
(** setup with one active label on a system with field_names [names] and field_name [whole]: l.162-182 (the index
    raises ValueError for an unknown name), 189-216 (field_name becomes the whole system's for lists and None) *)
Definition setup_object (names : list string) (whole : string) (res_ : list lterm) (label : string) (i : nat) (m : store) : res store :=
  match o_field (m i) with
  | OneField f =>
      if mem f names then Ok (upd m i (mk_object (OneField f) (Some (setup_terms (OneField f) [label] res_))))
      else Err ValueError
  | w => Ok (upd m i (mk_object (OneField whole) (Some (setup_terms w [label] res_))))
  end.
(** The calls of setup, in order: transport, diffusion, physics. *)
(** setup_scheme: semi_implicit_quasi_newton.py l.428-448, tr_bdf2_quasi_newton.py l.368-388. *)
Definition setup_calls (z : stepper) : list (nat * string) :=
  (map (fun e => (s_id (snd e), "transport")) (z_transport z) ++
   map (fun s => (s_id s, "diffusion")) (z_diffusion z) ++
   map (fun ps => (s_id (snd ps), p_label (fst ps))) (z_physics z))%list.
(** setup_scheme: semi_implicit_quasi_newton.py l.428-448, tr_bdf2_quasi_newton.py l.368-388. *)
Fixpoint setup_run (names : list string) (whole : string) (res_ : list lterm) (calls : list (nat * string)) (m : store) : res store :=
  match calls with
  | [] => Ok m
  | (i, l) :: tl => do m' <- setup_object names whole res_ l i m; setup_run names whole res_ tl m'
  end.
