(** Model of BackwardEuler, ThetaMethod, TrapeziumRule and TR_BDF2,
    gusto/time_discretisation/time_discretisation.py l.610-1048.

    Physics parametrisations: the source Functions are together one vector [src],
    refreshed by evaluate(x, dt) = P x.  Solves are relations. *)
From Verif Require Import Base Vec Fml.
Open Scope R_scope.

(** ThetaMethod.__init__ l.771-774; [wrapper]: EmbeddedDG or Recovery options. *)
Definition theta_construct (theta : R) (wrapper : bool) (r : res R) : Prop :=
  ((theta < 0 \/ theta > 1) /\ r = Err ValueError) \/
  (~ (theta < 0 \/ theta > 1) /\ r = if wrapper then Err NotImplementedError else Ok theta).
(** TR_BDF2.__init__ l.938-941 *)
Definition tr_bdf2_construct (gamma : R) (wrapper : bool) (r : res R) : Prop :=
  ((gamma < 0 \/ gamma > 1) /\ r = Err ValueError) \/
  (~ (gamma < 0 \/ gamma > 1) /\ r = if wrapper then Err NotImplementedError else Ok gamma).

Section Schemes.
  Context {I : Type}.
  Variables (N P : vec I -> vec I) (dt : R) (X : vec I).

  (** BackwardEuler.res, l.674-695 *)
  Definition be_res (x1 x_out : vec I) : form I :=
    let r := label_map all_terms (replace_subject x_out) keep (residual X) in
    let r := label_map has_td keep (times dt) r in
    fminus r (label_map has_td (replace_subject x1) drop (residual X)).
  (** ThetaMethod.res, l.814-835 *)
  Definition theta_res (theta : R) (x1 x_out : vec I) : form I :=
    let r := label_map all_terms (replace_subject x_out) keep (residual X) in
    let r := label_map has_td keep (times (theta * dt)) r in
    let q := label_map all_terms (replace_subject x1) keep (residual X) in
    fminus r (label_map has_td keep (times (- (1 - theta) * dt)) q).

  (** apply_cycle, l.697-714 and 837-854: evaluate the physics at x_in, then solve. *)
  Definition be_cycle (src x_in x_out src' : vec I) : Prop :=
    src' = P x_in /\ assemble N src' (be_res x_in x_out) = vzero.
  (** l.816-854. *)
  Definition theta_cycle (theta : R) (src x_in x_out src' : vec I) : Prop :=
    src' = P x_in /\ assemble N src' (theta_res theta x_in x_out) = vzero.
  (** apply, l.716-732 and 856-873, without adaptive subcycling (Subcycle.v):
      ncycles cycles.  The limiter attribute is not used. *)
  Fixpoint cycles (cycle : vec I -> vec I -> vec I -> vec I -> Prop) (n : nat) (src x0 x_out src' : vec I) : Prop :=
    match n with
    | O => x_out = x0 /\ src' = src
    | S k => exists x1 s1, cycle src x0 x1 s1 /\ cycles cycle k s1 x1 x_out src'
    end.
  (** l.717-732. *)
  Definition be_apply := cycles be_cycle.
  (** l.856-873. *)
  Definition theta_apply (theta : R) := cycles (theta_cycle theta).
  (** TrapeziumRule, l.876-907: theta = 0.5 *)
  Definition trapezium_apply := theta_apply (1 / 2).

  (** TR_BDF2.res, l.958-980 *)
  Definition tr_res (gamma : R) (xn xnpg : vec I) : form I :=
    let r := label_map all_terms (replace_subject xnpg) keep (residual X) in
    let r := label_map has_td keep (times (1 / 2 * gamma * dt)) r in
    let q := label_map all_terms (replace_subject xn) keep (residual X) in
    fminus r (label_map has_td keep (times (- (1 / 2) * gamma * dt)) q).
  (** TR_BDF2.res_bdf2, l.982-1008; the divisor gamma*(2 - gamma) *)
  Definition bdf2_res (gamma : R) (xn xnpg x_out : vec I) : form I :=
    let r := label_map all_terms (replace_subject x_out) keep (residual X) in
    let r := label_map has_td keep (times ((1 - gamma) / (2 - gamma) * dt)) r in
    let a := label_map has_td (replace_subject xn) drop (residual X) in
    let b := label_map has_td (replace_subject xnpg) drop (residual X) in
    fminus r (fminus (fscale (1 / (gamma * (2 - gamma))) b) (fscale ((1 - gamma) ^ 2 / (gamma * (2 - gamma))) a)).
  (** TR_BDF2.apply, l.1030-1048: no physics is evaluated, the source vector keeps
      its content.  Python raises ZeroDivisionError when the divisor is zero. *)
  Definition tr_bdf2_apply (gamma : R) (src x_in : vec I) (r : res (vec I)) (src' : vec I) : Prop :=
    src' = src /\
    ((gamma * (2 - gamma) = 0 /\ r = Err ZeroDivisionError) \/
     (gamma * (2 - gamma) <> 0 /\
      exists xnpg x_out, assemble N src (tr_res gamma x_in xnpg) = vzero /\
        assemble N src (bdf2_res gamma x_in xnpg x_out) = vzero /\ r = Ok x_out)).

  (** BackwardEuler.__init__ accepts a limiter and stores it (l.618-650); nothing in
      the class uses it. *)
  Definition backward_euler_apply (limiter : option (vec I -> vec I)) := be_apply.
End Schemes.
