(** Model of the values computed by one step of SplitTimestepper (gusto/timestepping/split_timestepper.py timestep l.149-163; SplitPrescribedTransport has the same
    loop without weights).  Split.v models the constructor and the lengths of the substeps; here the substeps act on fields, through the schemes of RK.v and
    Theta.v.  Real weights (rounding is Split.v/SplitFloat); one cycle per substep (other numbers of subcycles are refuted in SplitProps.v). *)
From Coq Require Import String.
From Verif Require Import Base Vec RK RKProps Theta ThetaProps TimeVarying.
Open Scope R_scope.

(** A scheme for one group of terms: ExplicitRungeKutta (coefficients, stages, formulation) or ThetaMethod/BackwardEuler (theta = 1)/TrapeziumRule. *)
Inductive subscheme := ExplicitSub (A : nat -> nat -> R) (s : nat) (f : formulation) | ThetaSub (theta : R).

(** apply with self.dt = h: one apply_cycle (explicit_runge_kutta.py l.434-454; time_discretisation.py l.697-714, 837-854).  F: the tendency of its terms other than
    physics; P: the tendency of its physics terms, evaluated by evaluate(x_in, dt).  The stage storage and the sources may hold anything before. *)
Definition sub_apply {I} (sc : subscheme) (F P : vec I -> vec I) (h : R) (x x' : vec I) : Prop :=
  match sc with
  | ExplicitSub A s Increment => exists k, x' = snd (increment_cycle A s no_limiter h F P k x)
  | ExplicitSub A s Predictor => exists k, x' = snd (predictor_cycle A s no_limiter h F P k x)
  | ThetaSub theta => exists X src src', theta_apply (neg F) (neg P) h X theta 1 src x x' src'
  end.

(** Is dt part of a form that is built at the first apply and kept?  (Split.v dt_use: predictor l.201-263, the solvers of the implicit schemes) *)
Definition keeps_first_dt (sc : subscheme) : bool :=
  match sc with ExplicitSub _ _ Increment => false | _ => true end.
(** weights[idx] of the first entry with this name *)
Fixpoint first_weight (term : string) (todo : list (string * R)) : R :=
  match todo with [] => 0 | (l, w) :: tl => if String.eqb l term then w else first_weight term tl end.
(** the length of a substep is dt times this: scheme.dt = split_dts[idx] (l.124, 152, 156, 161), unless an earlier one is kept *)
Definition used_weight (all : list (string * R)) (term : string) (w : R) (sc : subscheme) : R :=
  if keeps_first_dt sc then first_weight term all else w.

Definition nothing {I} : vec I -> vec I := fun _ => vzero.
Section Step.
Context {I : Type}.
(** dynamics_schemes[term] with the tendency of the terms labelled term; physics_schemes with the tendency of each parametrisation *)
Variables (dyn_scheme : string -> subscheme) (dyn : string -> vec I -> vec I) (phys : list (subscheme * (vec I -> vec I))).
Variable all : list (string * R).

(** "for _, scheme in self.physics_schemes: scheme.dt = split_dt; scheme.apply(np1, np1)", l.153-157 *)
Fixpoint physics_substeps (ps : list (subscheme * (vec I -> vec I))) (dt w : R) (x x' : vec I) : Prop :=
  match ps with
  | [] => x' = x
  | (sc, P) :: tl => exists z, sub_apply sc nothing P (dt * used_weight all "physics" w sc) x z /\ physics_substeps tl dt w z x'
  end.
(** timestep, l.149-163 *)
Fixpoint substeps (todo : list (string * R)) (dt : R) (x x' : vec I) : Prop :=
  match todo with
  | [] => x' = x
  | (term, w) :: tl => exists z,
      (if String.eqb term "physics" then physics_substeps phys dt w x z
       else sub_apply (dyn_scheme term) (dyn term) nothing (dt * used_weight all term w (dyn_scheme term)) x z) /\ substeps tl dt z x'
  end.
End Step.
(** one time step: zip(term_splitting, weights) *)
Definition split_step {I} dyn_scheme (dyn : string -> vec I -> vec I) phys (todo : list (string * R)) (dt : R) (x x' : vec I) : Prop :=
  substeps dyn_scheme dyn phys todo todo dt x x'.
