(** Model of a step of a wrapped scheme: EmbeddedDGWrapper (gusto/time_discretisation/wrappers.py l.83-192), RecoveryWrapper (l.195-303) and SUPGWrapper's
    parameter and test function (l.312-378).  Functions and projections as in Projection.v; the scheme is any relation between its input and its output in the
    embedding space. *)
From Coq Require Import String.
From Verif Require Import Base Vec Projection.
Open Scope R_scope.
Open Scope list_scope.

(** ** How the result is taken back *)
(** The project_back_method values of wrappers.py. *)
Inductive back := BProject | BRecover | BInterpolate | BConservative | BOther.
(** EmbeddedDGWrapper.setup, l.128-152 *)
Definition embedded_setup (b : back) : res unit := match b with BProject | BRecover | BConservative => Ok tt | _ => Err NotImplementedError end.
(** RecoveryWrapper.setup, l.257-278: the message of the error asks for an attribute of the options that RecoveryOptions does not have (configuration.py l.143-152) *)
Definition recovery_setup (b : back) : res unit := match b with BOther => Err AttributeError | _ => Ok tt end.
Section Step.
Variables (n : nat) (w : fn).                       (* quadrature *)
Variables (V Ve : fn -> Prop).                      (* the space of the field, the embedding space *)
(** the Dirichlet conditions of post_apply_bcs: target values b at the points for which wall holds; test functions vanish there *)
Variables (wall : nat -> Prop) (bval : fn).
(** wrappers.py l.83-192 with bcs. *)
Definition project_bcs (source target : fn) : Prop :=
  V target /\ (forall i, wall i -> target i = bval i) /\
  forall test, V test -> (forall i, wall i -> test i = 0) -> integral n w (fun i => test i * target i) = integral n w (fun i => test i * source i).
Variable scheme : fn -> fn -> Prop.
(** l.163-192 with project_back_method 'project': into = interpolation (or projection) to the embedding space *)
Definition embedded_step (into : fn -> fn -> Prop) (x_in x_out : fn) : Prop := exists a b, into x_in a /\ scheme a b /\ l2_project n w V b x_out.
(** wrappers.py l.83-192. *)
Definition embedded_step_bcs (into : fn -> fn -> Prop) (x_in x_out : fn) : Prop := exists a b, into x_in a /\ scheme a b /\ project_bcs b x_out.
(** 'conservative_project': densities before and after the step, in the original and in the embedding space *)
(** wrappers.py l.83-192. *)
Definition embedded_step_conservative (rho_in rho_in_e rho_out_e rho_out x_in x_out : fn) : Prop :=
  exists a b, conservative_project n w Ve false rho_in rho_in_e x_in a /\ scheme a b /\ conservative_project n w V true rho_out_e rho_out b x_out.
(** l.280-303, with project_low_method 'project' *)
Definition recovered_step (rec high : fn -> fn) (inj : fn -> fn -> Prop) (x_in x_out : fn) : Prop :=
  exists a b, reversible_recover rec high (l2_project n w V) inj x_in a /\ scheme a b /\ l2_project n w V b x_out.
(** ... and with 'interpolate' *)
(** wrappers.py l.195-330. *)
Definition recovered_step_interpolate (rec high interp : fn -> fn) (inj : fn -> fn -> Prop) (x_in x_out : fn) : Prop :=
  exists a b, reversible_recover rec high (fun x y => y = interp x) inj x_in a /\ scheme a b /\ x_out = interp b.
End Step.

(** ** SUPG *)
(** the Sobolev space of an element (UFL): H1; different in the directions; HDiv, which is HDiv in all directions; others *)
(** Auxiliary, nothing in the code by itself. *)
Inductive sobolev := H1 | Directional (h1 : nat -> bool) | HDivSpace | Else.
(** l.340-356: the diagonal of tau; dim: topological dimension *)
Definition supg_diagonal (default dt : R) (dim : nat) (s : sobolev) : res (list R) :=
  match s with
  | H1 => Ok (map (fun _ => default * dt) (seq 0 dim))
  | Directional h1 => Ok (map (fun i => if h1 i then default * dt else 0) (seq 0 dim))
  | HDivSpace => Ok (map (fun _ => 0) (seq 0 dim))
  | Else => Err ValueError
  end.
(** l.357-361; tau given by the user must have the right shape, l.335-338 *)
Definition tau_matrix (vals : list R) (j i : nat) : R := if Nat.eqb i j then nth j vals 0 else 0.
(** l.376: test + dot(dot(uadv, tau), grad(test)); the velocity has the geometric dimension, the matrix the topological one (UFL refuses to contract different dimensions) *)
Definition supg_test_function (gdim dim : nat) (vals : list R) (u : nat -> R) (test : R) (grad : nat -> R) : res R :=
  if Nat.eqb gdim dim then Ok (test + rsum dim (fun i => rsum dim (fun j => u j * tau_matrix vals j i) * grad i)) else Err ValueError.
