(** Model of how the time loop chooses the velocity that transports the fields: setup_transporting_velocity (timestepping/timestepper.py l.121-169),
    the transporting_velocity properties of the time steppers, the SUPG wrapper (time_discretisation/wrappers.py l.372-423,
    time_discretisation.py l.300-325), the rain velocity of Fallout (physics/microphysics.py l.281-301), the prescribed velocities of
    PrescribedTransport (timestepper.py l.381-507) and SplitPrescribedTransport (split_timestepper.py l.245-404), and the consistent metric wind
    (timestepping/semi_implicit_quasi_newton.py l.241-267, 382-391, 433-439, 470-512; tr_bdf2_quasi_newton.py l.218-244, 333-341, 372-379, 417-436). *)
From Coq Require Import List String Bool Arith QArith Reals.
Import ListNotations.
From Verif Require Import Base Vec.
Close Scope Q_scope.
Close Scope R_scope.
Open Scope nat_scope.

(** ** Forms as expressions *)
(** UFL expressions: coefficients and test functions are terminals (Coef), the operators are arbitrary *)
(** Auxiliary, nothing in the code by itself. *)
Inductive expr := Coef (c : nat) | Lit (a : nat) | Un (f : nat) (e : expr) | Bin (f : nat) (e1 e2 : expr).
(** Auxiliary, nothing in the code by itself. *)
Definition expr_eq_dec (e1 e2 : expr) : {e1 = e2} + {e1 <> e2}.
Proof. decide equality; apply Nat.eq_dec. Defined.
(** ufl.replace(e, {key: new}): structural, not inside of what has been put in *)
(** Auxiliary, nothing in the code by itself. *)
Fixpoint replace (key new e : expr) : expr :=
  if expr_eq_dec e key then new else
  match e with Un f a => Un f (replace key new a) | Bin f a b => Bin f (replace key new a) (replace key new b) | _ => e end.
(** A term: its form, the value of its transporting_velocity label and the labelled forms among its labels (mass_weighted, all_but_last):
    each a list of forms with their own label *)
(** The terms of timestepping/timestepper.py l.121-169. *)
Record tterm := { form : expr; vel : option expr; inside : list (list (expr * option expr)) }.

(** Which velocity, l.137-145.  The transporting_velocity property: "prognostic" or an expression *)
Inductive velocity := Prognostic | Given (e : expr).
(** The classes of timestepping/. *)
Inductive stepper := PlainStepper | PrescribedStepper | SplitStepper | SplitPhysicsStepper | SplitPrescribedStepper | SiqnStepper | TrBdf2Stepper.
Section Names.
Variables (X : nat -> nat)           (* split(equation.X)[i] *)
          (state_u u_n u_np1 alpha_u ubar : nat)   (* fields('u'), x.n('u'), x.np1('u'), self.alpha_u, self.ubar *)
          (add sub mul : nat).                      (* operators *)
(** fields: names in StateFields *)
Definition the_velocity (s : stepper) (fields : list string) : res velocity :=
  match s with
  | PlainStepper | SplitPhysicsStepper => Ok Prognostic
  | PrescribedStepper | SplitStepper | SplitPrescribedStepper => if existsb (String.eqb "u") fields then Ok (Given (Coef state_u)) else Err ValueError
  | SiqnStepper => Ok (Given (Bin add (Coef u_n) (Bin mul (Coef alpha_u) (Bin sub (Coef u_np1) (Coef u_n)))))   (* l.402-408 *)
  | TrBdf2Stepper => Ok (Given (Coef ubar))                                                                        (* tr_bdf2 l.350-352 *)
  end.
(** Auxiliary, nothing in the code by itself. *)
Fixpoint index_of (n : string) (l : list string) : option nat :=
  match l with [] => None | m :: l => if String.eqb n m then Some 0 else match index_of n l with Some i => Some (S i) | None => None end end.
(** names: field_names of the equation; None: an equation for one field, which has no such attribute.
    Result None: the string "prognostic" itself *)
(** setup_transporting_velocity, timestepping/timestepper.py l.121-150. *)
Definition choose (uadv_in : option expr) (v : velocity) (fields : list string) (names : option (list string)) : res (option expr) :=
  match uadv_in, v with
  | Some e, _ => Ok (Some e)
  | None, Given e => Ok (Some e)
  | None, Prognostic =>
      if existsb (String.eqb "u") fields then
        match names with
        | None => Err AttributeError
        | Some ns => match index_of "u" ns with Some i => Ok (Some (Coef (X i))) | None => Err ValueError end
        end
      else Ok None
  end.
End Names.
(** l.147-169; label update: the velocity is recorded in the label of the terms that have one *)
Definition put (u : expr) (p : expr * option expr) : expr * option expr :=
  match snd p with Some key => (replace key u (fst p), Some u) | None => p end.
(** timestepping/timestepper.py l.150-169. *)
Definition set_velocity (u : expr) (t : tterm) : tterm :=
  match vel t with
  | Some key => {| form := replace key u (form t); vel := Some u; inside := map (map (put u)) (inside t) |}
  | None => t
  end.
(** the string "prognostic" cannot be put into a form *)
(** timestepping/timestepper.py l.121-169. *)
Definition setup_velocity (u : option expr) (R : list tterm) : res (list tterm) :=
  match u with
  | Some u => Ok (map (set_velocity u) R)
  | None => if existsb (fun t => match vel t with Some _ => true | None => false end) R then Err ValueError else Ok R
  end.

(** SUPG: new test function test + dot(dot(uadv, tau), grad(test)), wrappers.py l.374-377: streamline u test is the second part.  Then label_terms l.398-423 *)
Definition supg_test (add : nat) (streamline : expr -> expr -> expr) (test s : nat) : expr := Bin add (Coef test) (streamline (Coef s) (Coef test)).
(** time_discretisation/wrappers.py SUPGWrapper.label_terms, l.399-422. *)
Definition supg_term (add : nat) (streamline : expr -> expr -> expr) (test s : nat) (t : tterm) : tterm :=
  let f := replace (Coef test) (supg_test add streamline test s) (form t) in
  {| form := match vel t with Some key => replace key (Coef s) f | None => f end; vel := Some (Coef s); inside := inside t |}.
(** Fallout l.286-301: the form of the transport method with the rain velocity r in place of its velocity; the label is not updated *)
Definition fallout_term (r : nat) (t : tterm) : tterm :=
  {| form := match vel t with Some key => replace key (Coef r) (form t) | None => form t end; vel := vel t; inside := inside t |}.

(** ** Prescribed velocities *)
Section Prescribed.
Context {V S : Type}.   (* velocities; prognostic states *)
(** p_clock is domain.t *)
(** PrescribedTransport, timestepping/timestepper.py l.383-520. *)
Record prescribed := { p_flag : bool; p_ready : bool; p_fun : option (Q -> V); p_clock : Q; p_u : V; p_state : S; p_dumps : list (Q * V * S) }.
(** __init__ l.412-420 *)
Definition new_prescribed (flag : bool) (clock : Q) (u : V) (s : S) : prescribed :=
  {| p_flag := flag; p_ready := negb flag; p_fun := None; p_clock := clock; p_u := u; p_state := s; p_dumps := [] |}.
(** setup_prescribed_expr l.431-455 and setup_prescribed_apply l.457-472 *)
Definition setup_prescribed (f : Q -> V) (p : prescribed) : res prescribed :=
  if p_ready p then Err RuntimeError else
  Ok {| p_flag := p_flag p; p_ready := true; p_fun := Some f; p_clock := p_clock p; p_u := p_u p; p_state := p_state p; p_dumps := p_dumps p |}.
(** timestepping/timestepper.py l.431-470, 496-520. *)
Definition evaluate (p : prescribed) : V := match p_fun p with Some f => f (p_clock p) | None => p_u p end.
Variable scheme : V -> Q -> S -> S.   (* self.scheme.apply, with time step dt *)
(** timestep l.495-507, inside of run l.240-262 *)
Definition prescribed_step (dt : Q) (p : prescribed) : prescribed :=
  let u := evaluate p in let s := scheme u dt (p_state p) in let t := (p_clock p + dt)%Q in
  {| p_flag := p_flag p; p_ready := p_ready p; p_fun := p_fun p; p_clock := t; p_u := u; p_state := s; p_dumps := (p_dumps p ++ [(t, u, s)])%list |}.
(** timestepping/timestepper.py l.236-257, 496-520. *)
Fixpoint steps (n : nat) (dt : Q) (p : prescribed) : prescribed := match n with O => p | Datatypes.S n => steps n dt (prescribed_step dt p) end.
(** run l.474-493 followed by BaseTimestepper.run l.196-262: the velocity is evaluated, the initial state is dumped, then the clock is set.
    The number of steps is that of TimeLoop.v *)
Definition run_prescribed (t : Q) (n : nat) (dt : Q) (p : prescribed) : res prescribed :=
  if p_flag p && negb (p_ready p) then Err RuntimeError else
  let u := evaluate p in
  Ok (steps n dt {| p_flag := p_flag p; p_ready := p_ready p; p_fun := p_fun p; p_clock := t; p_u := u; p_state := p_state p;
                    p_dumps := (p_dumps p ++ [(t, u, p_state p)])%list |}).
End Prescribed.
Arguments prescribed : clear implicits.

(** ** The consistent metric wind *)
Open Scope R_scope.
(** ubar + k*(dot(ubar, k) - adv_z) *)
(** semi_implicit_quasi_newton.py l.464-513. *)
Definition consistent_wind (d : nat) (k ubar : nat -> R) (adv_z : R) : nat -> R := fun i => ubar i + k i * (rsum d (fun j => ubar j * k j) - adv_z).
(** l.241-260: what the constructor checks.  Names of the equation set; first transport scheme (Several: a scheme for several fields) *)
Inductive transported := One (n : string) | Several (l : list string).
(** semi_implicit_quasi_newton.py l.242-344. *)
Definition accepts_consistent (names : list string) (schemes : list transported) : res unit :=
  if negb (existsb (String.eqb "theta") names) then Err ValueError
  else if negb (existsb (String.eqb "z") names) then Err ValueError
  else match schemes with
       | One n :: _ => if String.eqb n "z" then Ok tt else Err ValueError
       | Several _ :: _ => Err ValueError
       | [] => Err IndexError
       end.
Section TransportLoop.
(** W: velocities, F: values of a field, all fields are held by name; a scheme transports a set of values with a velocity *)
Context {W F : Type}.
Variables (difference : F -> F -> R -> F)      (* (a - b)/dt *)
          (wind : W -> F -> W)                  (* projection of consistent_wind *)
          (z_field : F)                         (* interpolation of dot(k, x) *)
          (dt : R).
(** self.active_transport, semi_implicit_quasi_newton.py l.464-513. *)
Record transport_scheme := { names_of : transported; apply1 : W -> F -> F; apply_all : W -> (string -> F) -> (string -> F) }.
(** Auxiliary, nothing in the code by itself. *)
Record loop_state := { star : string -> F; p_ : string -> F; c_wind : W }.
(** Auxiliary, nothing in the code by itself. *)
Definition upd (f : string -> F) (n : string) (x : F) : string -> F := fun m => if String.eqb m n then x else f m.
(** the velocity a scheme was set up with, l.433-439: consistent_wind for theta *)
Definition velocity_for (consistent : bool) (n : transported) (ubar cw : W) : W :=
  match n with One n => if consistent && String.eqb n "theta" then cw else ubar | Several _ => ubar end.
(** transport_fields, l.460-512, without predictor *)
Definition transport_one (consistent : bool) (ubar : W) (s : transport_scheme) (st : loop_state) : loop_state :=
  match names_of s with
  | Several l => let x := apply_all s (velocity_for consistent (names_of s) ubar (c_wind st)) (star st) in
                 {| star := star st; p_ := fold_left (fun p n => upd p n (x n)) l (p_ st); c_wind := c_wind st |}
  | One n => if consistent && String.eqb n "z" then
               let z' := apply1 s (velocity_for consistent (One n) ubar (c_wind st)) z_field in
               {| star := upd (star st) "z" z_field; p_ := upd (p_ st) "z" z'; c_wind := wind ubar (difference z_field z' dt) |}
             else {| star := star st; p_ := upd (p_ st) n (apply1 s (velocity_for consistent (One n) ubar (c_wind st)) (star st n)); c_wind := c_wind st |}
  end.
(** semi_implicit_quasi_newton.py l.464-513. *)
Definition transport_fields (consistent : bool) (ubar : W) (l : list transport_scheme) (st : loop_state) : loop_state :=
  fold_left (fun st s => transport_one consistent ubar s st) l st.
(** TR-BDF2, l.417-436: with the consistent metric the attribute true_adv_z_projection is used, which is never set *)
Definition trbdf2_transport_one (consistent : bool) (ubar : W) (s : transport_scheme) (st : loop_state) : res loop_state :=
  match names_of s with
  | One n => if consistent && String.eqb n "z" then Err AttributeError else Ok (transport_one consistent ubar s st)
  | Several _ => Err AssertionError
  end.
(** tr_bdf2_quasi_newton.py l.404-436. *)
Fixpoint trbdf2_transport (consistent : bool) (ubar : W) (l : list transport_scheme) (st : loop_state) : res loop_state :=
  match l with [] => Ok st | s :: l => do st <- trbdf2_transport_one consistent ubar s st; trbdf2_transport consistent ubar l st end.
End TransportLoop.
Arguments transport_scheme : clear implicits.
Arguments loop_state : clear implicits.
