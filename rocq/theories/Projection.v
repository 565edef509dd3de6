(** Model of the conservative projection and of the reversible and conservative recovery operators
    (gusto/core/conservative_projection.py, gusto/recovery/reversible_recovery.py, the round trip of
    time_discretisation/wrappers.py).
    A scalar function is represented by its values at the quadrature points 0..n-1 and dx by the
    weights w; a function space is the set V of functions it contains.  A variational solver is the
    relation between its data and any solution of its equations; firedrake's solvers and Projector
    are not modelled further. *)
From Verif Require Import Base Vec.
Open Scope R_scope.

(** Auxiliary, nothing in the code by itself. *)
Definition fn := nat -> R.
(** assemble(...*dx), conservative_projection.py l.72-92. *)
Definition integral (n : nat) (w : fn) (f : fn) : R := rsum n (fun i => w i * f i).

(** ConservativeProjector.project (conservative_projection.py l.72-92): m_mean is assembled only
    with subtract_mean and is Constant(0.0) otherwise; then
      rho_source*inner(test, m_source - m_mean)*dx - rho_target*inner(test, m_trial - m_mean)*dx = 0
    for all test functions *)
Definition m_mean (n : nat) (w : fn) (m_source : fn) (subtract_mean : bool) : R :=
  if subtract_mean then integral n w m_source / integral n w (fun _ => 1) else 0.
(** conservative_projection.py l.26-92. *)
Definition conservative_project (n : nat) (w : fn) (V : fn -> Prop) (subtract_mean : bool) (rho_source rho_target m_source m_target : fn) : Prop :=
  let mm := m_mean n w m_source subtract_mean in
  V m_target /\
  forall test, V test ->
    integral n w (fun i => rho_source i * (test i * (m_source i - mm))) - integral n w (fun i => rho_target i * (test i * (m_target i - mm))) = 0.
(** firedrake's Projector: the L2 projection *)
(** Used at reversible_recovery.py l.60-98. *)
Definition l2_project (n : nat) (w : fn) (V : fn -> Prop) (source target : fn) : Prop :=
  V target /\ forall test, V test -> integral n w (fun i => test i * target i) = integral n w (fun i => test i * source i).

(** ReversibleRecoverer.project (reversible_recovery.py l.92-98) for any operators: rec (the
    recovery, with its boundary correction), high (into the higher-order space), low, inj. *)
Definition reversible_recover (rec high : fn -> fn) (low inj : fn -> fn -> Prop) (q_low q_high : fn) : Prop :=
  exists corr_low1 corr_high,
    let q_rec_high := high (rec q_low) in
    low q_rec_high corr_low1 /\                           (* projector_low *)
    let corr_low := fun i => q_low i - corr_low1 i in    (* q_corr_low.assign(q_low - q_corr_low) *)
    inj corr_low corr_high /\                             (* injector *)
    q_high = fun i => corr_high i + q_rec_high i.

(** ConservativeRecoverer.project (l.152-158): the low projection has the densities swapped and
    subtracts the mean, the injector does not *)
Definition conservative_recover (n : nat) (w : fn) (Vlow Vhigh : fn -> Prop) (rec high : fn -> fn) (rho_s rho_t q_low q_high : fn) : Prop :=
  exists corr_low1 corr_high,
    let q_rec_high := high (rec q_low) in
    conservative_project n w Vlow true rho_t rho_s q_rec_high corr_low1 /\
    let corr_low := fun i => q_low i - corr_low1 i in
    conservative_project n w Vhigh false rho_s rho_t corr_low corr_high /\
    q_high = fun i => corr_high i + q_rec_high i.
