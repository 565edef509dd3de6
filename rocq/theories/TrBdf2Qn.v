(** Model of gusto/timestepping/tr_bdf2_quasi_newton.py: TRBDF2QuasiNewton (l.24-642).
    Same conventions as Siqn.v.  Not modelled: the consistent metric option
    (transport_fields l.425 reads self.true_adv_z_projection, which nothing sets).  Fast physics is absent: the constructor raises if any is
    given (l.194-201).  Reference profile updates (l.436-455, 616-642) repeat the code of
    SemiImplicitQuasiNewton. *)
From Verif Require Import Base Vec Siqn.
From Coq Require Import String.
Open Scope R_scope.

(** l.146-148: float(gamma) is a Python float, so that division by zero raises *)
Definition gammas (gamma : R) : res (R * R * R) :=
  if Req_EM_T (2 - 2 * gamma) 0 then Err ZeroDivisionError
  else let gamma2 := (1 - 2 * gamma) / (2 - 2 * gamma) in
       if Req_EM_T (2 * gamma) 0 then Err ZeroDivisionError
       else Ok (gamma, gamma2, (1 - gamma2) / (2 * gamma)).

Record trq (I : Type) := mk_trq {
  q_residual : list (fterm I);
  q_names : list string;
  q_solver : list string;              (* solver_prognostics *)
  q_tracers : list string;             (* tracers_to_copy: the active tracers, l.273-276 *)
  q_g : R; q_g2 : R; q_g3 : R; q_dt : R;
  outer_tr : nat; inner_tr : nat; outer_bdf : nat; inner_bdf : nat;
  q_mass : state I -> state I;
  q_lin_tr : state I -> state I;
  q_lin_bdf : state I -> state I;
  (** the schemes, as functions of the transporting velocity ubar *)
  q_transports : list (string * (vec I -> vec I -> vec I));
  q_slow : list (state I -> state I);
  q_final : list (state I -> state I);  (* diffusion and final physics *)
}.
Arguments mk_trq {I}. Arguments q_residual {I}. Arguments q_names {I}. Arguments q_solver {I}. Arguments q_tracers {I}.
Arguments q_g {I}. Arguments q_g2 {I}. Arguments q_g3 {I}. Arguments q_dt {I}.
Arguments outer_tr {I}. Arguments inner_tr {I}. Arguments outer_bdf {I}. Arguments inner_bdf {I}.
Arguments q_mass {I}. Arguments q_lin_tr {I}. Arguments q_lin_bdf {I}. Arguments q_transports {I}.
Arguments q_slow {I}. Arguments q_final {I}.

Section Step.
  Context {I : Type}.
  Variable c : trq I.

  (** transport_fields, l.401-434 (without consistent metric) with ubar set by
      update_transporting_velocity, l.345-348 *)
  Definition q_transport (ubar : vec I) (x_in x_out : state I) : state I :=
    fold_left (fun out ns => sset out (fst ns) (snd ns ubar (x_in (fst ns)))) (q_transports c) x_out.
  (** l.354-357. *)
  Definition q_ubar (factor : R) (uk ukp1 : vec I) : vec I := (factor * (1/2)) *v (uk +v ukp1).

  (** Forcing.zero_non_wind_terms and zero_non_prognostics *)
  (** semi_implicit_quasi_newton.py l.851-870. *)
  Definition q_zero_non_wind (x_in x_out : state I) : state I :=
    fold_left (fun out n => if String.eqb n "u" then out else sset out n (x_in n)) (q_names c) x_out.
  (** semi_implicit_quasi_newton.py l.1000-1016. *)
  Definition q_zero_non_prognostics (r : state I) : state I :=
    fold_left (fun out n => if existsb (String.eqb n) (q_solver c) then out else sset out n vzero) (q_names c) r.
  (** copy_active_tracers, l.387-399 *)
  Definition q_copy (x_in x_out : state I) : state I :=
    fold_left (fun out n => sset out n (x_in n)) (q_tracers c) x_out.

  (** one inner iteration: l.510-535 (lin = tr_solver, alpha 1/2, dt 2 gamma dt) and
      l.585-606 (bdf_solver, alpha 1, dt gamma2 dt) *)
  Definition q_inner (alpha dt : R) (lin : state I -> state I) (inner : nat) (xp x : state I) : state I :=
    let xrhs := sadd xp (q_mass c (L_implicit (q_residual c) alpha dt x)) in
    let xrhs := if Nat.ltb 0 inner then q_zero_non_wind x xrhs else xrhs in
    sadd x (lin (q_zero_non_prognostics (ssub xrhs x))).
  (** l.519-540, 584-603. *)
  Fixpoint q_inner_loop (alpha dt : R) (lin : state I -> state I) (n k : nat) (xp x : state I) : state I :=
    match n with O => x | S m => q_inner_loop alpha dt lin m (S k) xp (q_inner alpha dt lin k xp x) end.

  (** TR step, l.482-541; dt = 2.0*gamma*dt, alpha = 0.5 (l.319) *)
  Definition tr_dt : R := 2 * q_g c * q_dt c.
  (** l.456-497. *)
  Definition tr_xstar (xn : state I) : state I :=
    sadd (fold_left (fun y p => p y) (q_slow c) xn) (q_mass c (L_explicit (q_residual c) (1/2) tr_dt xn)).
  (** l.498-545. *)
  Definition tr_outer (xn xstar : state I) (s : state I * state I) : state I * state I :=
    let '(xp, xm) := s in
    let xp := q_transport (q_ubar (2 * q_g c) (xn "u"%string) (xm "u"%string)) xstar xp in
    let xm := q_inner_loop (1/2) tr_dt (q_lin_tr c) (inner_tr c) 0 xp xm in
    (xp, q_copy xp xm).
  (** l.456-545. *)
  Definition tr_step (xn : state I) : state I :=
    snd (niter (outer_tr c) (tr_outer xn (tr_xstar xn)) (tr_xstar xn, xn)).

  (** BDF step, l.543-607; alpha = 1.0, dt = gamma2*dt (l.320) *)
  Definition bdf_dt : R := q_g2 c * q_dt c.
  (** l.555-608. *)
  Definition bdf_outer (xn xm : state I) (s : state I * state I * state I) : state I * state I * state I :=
    let '(xp, xpm, x) := s in
    let xpm := q_transport (q_ubar (1 - 2 * q_g c) (x "u"%string) (x "u"%string)) xm xpm in
    let xp := q_transport (q_ubar 1 (x "u"%string) (x "u"%string)) xn xp in
    let xp := sadd (sscal (1 - q_g3 c) xp) (sscal (q_g3 c) xpm) in
    let x := q_inner_loop 1 bdf_dt (q_lin_bdf c) (inner_bdf c) 0 xp x in
    (xp, xpm, q_copy xp x).
  (** l.547-618. *)
  Definition bdf_step (xn xm : state I) : state I :=
    snd (niter (outer_bdf c) (bdf_outer xn xm) (xn, xm, xn)).

  (** timestep, l.457-619 *)
  Definition trq_timestep (xn : state I) : state I :=
    fold_left (fun x f => f x) (q_final c) (bdf_step xn (tr_step xn)).
End Step.
