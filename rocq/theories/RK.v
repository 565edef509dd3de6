(** Model of gusto/time_discretisation/explicit_runge_kutta.py: the three
    formulations of ExplicitRungeKutta (solve_stage l.320-432, apply_cycle
    l.434-454) and ExplicitTimeDiscretisation.apply (time_discretisation.py
    l.592-607).

    F is the right-hand side without physics: the mass-matrix solve of the residual
    <x_out> + <terms at x1> = 0, i.e. F(x) = - M^{-1} terms(x); P is the tendency the
    physics schemes compute in evaluate(x, dt).  lim is the limiter (identity if
    None).  Simplifications: exact solves; linear time derivative; no augmentation. *)
From Verif Require Import Base Vec.
Open Scope R_scope.

(** Auxiliary, nothing in the code by itself. *)
Definition upd {X} (f : nat -> X) (n : nat) (v : X) : nat -> X :=
  fun m => if Nat.eqb m n then v else f m.

Section RK.
  Context {I : Type}.
  Variables (A : nat -> nat -> R) (s : nat) (lim : vec I -> vec I) (dt : R).

  (** "for i in range(n): x1.assign(x1 + dt*A[row,i]*k[i])", l.325-326, 339-340 *)
  Definition axpy (row n : nat) (k : nat -> vec I) (x : vec I) : vec I :=
    fold_left (fun x i => x +v (dt * A row i) *v k i) (seq 0 n) x.

  (** "for evaluate in evaluate_source: evaluate(x, dt)" followed by
      "limiter.apply(x)" and the solve (increment l.326-335, linear l.389-400,
      l.414-424): physics sees the unlimited value, the other terms the limited one. *)
  Definition rhs_physics_then_limit (F P : vec I -> vec I) (x : vec I) : vec I := F (lim x) +v P x.

  (** solve_stage, increment branch, l.322-343; G is the map from the unlimited stage
      value to the increment k. *)
  Definition increment_stage (G : vec I -> vec I) (x0 : vec I) (st : (nat -> vec I) * vec I) (stage : nat)
    : (nat -> vec I) * vec I :=
    let '(k, _) := st in
    let x1 := axpy (stage - 1) stage k x0 in
    let k := upd k stage (G x1) in
    let x1 := if Nat.eqb stage (s - 1) then lim (axpy stage s k x0) else lim x1 in
    (k, x1).

  (** apply_cycle, l.434-454, increment: [x_in] is limited in place, the stage
      storage k persists between calls. Result: (k, x1, limited x_in). *)
  Definition increment_cycle (F P : vec I -> vec I) (k : nat -> vec I) (x_in : vec I) : (nat -> vec I) * vec I :=
    let x0 := lim x_in in
    fold_left (increment_stage (rhs_physics_then_limit F P) x0) (seq 0 s) (k, x0).

  (** solve_stage, predictor branch, l.345-369; the residual list is l.231-264:
      field_{stage+1} = field_0 + sum_{i<=stage} dt A[stage,i] (F(field_i) + source_i),
      source_i evaluated at the limited field_i (l.351-358).  G is F + physics. *)
  Definition predictor_stage (G : vec I -> vec I) (x0 : vec I) (st : (nat -> vec I) * vec I) (stage : nat)
    : (nat -> vec I) * vec I :=
    let '(fi, x1) := st in
    let fi := if Nat.eqb stage 0 then upd fi 0 x0 else fi in
    let fi := upd fi (S stage) (fi stage) in
    let fi := upd fi stage (lim (fi stage)) in
    let fi := upd fi (S stage)
      (fold_left (fun x i => x +v (A stage i * dt) *v G (fi i)) (seq 0 (S stage)) (fi 0%nat)) in
    let x1 := if Nat.eqb stage (s - 1) then lim (fi (S stage)) else x1 in
    (fi, x1).
  (** l.345-369, 434-454. *)
  Definition predictor_cycle (F P : vec I -> vec I) (fi : nat -> vec I) (x_in : vec I) : (nat -> vec I) * vec I :=
    let x0 := lim x_in in
    fold_left (predictor_stage (fun x => F x +v P x) x0) (seq 0 s) (fi, x0).

  (** solve_stage, linear branch, l.371-427.  G1 belongs to the all-but-last
      form, G2 to the last form.  lhs is field_lhs, reallocated
      (zero) at the first stage of the first subcycle. *)
  Definition linear_stage (G1 G2 : vec I -> vec I) (ncycles idx : nat) (x0 : vec I)
    (st : (nat -> vec I) * vec I) (stage : nat) : (nat -> vec I) * vec I :=
    let '(lhs, x1) := st in
    let cycle_stage := (s * idx + stage)%nat in
    let lhs := if Nat.eqb stage 0 && Nat.eqb idx 0 then upd (fun _ => vzero) 0 x0 else lhs in
    if Nat.ltb (cycle_stage + 1) (ncycles * s) then
      let rhs := fold_left (fun r i => r +v A stage i *v lhs (s * idx + i)%nat) (seq 0 (S stage)) vzero in
      let x1 := x0 +v dt *v G1 rhs in
      (upd lhs (cycle_stage + 1) x1, x1)
    else
      let rhs := fold_left (fun r i => r +v A (s - 1)%nat (i mod s)%nat *v lhs i) (seq 0 (ncycles * s)) vzero in
      (lhs, lim (x0 +v dt *v G2 rhs)).
  (** l.371-427, 434-454. *)
  Definition linear_cycle_of (G1 G2 : vec I -> vec I) (ncycles idx : nat) (lhs : nat -> vec I) (x_in : vec I)
    : (nat -> vec I) * vec I :=
    let x0 := lim x_in in
    fold_left (linear_stage G1 G2 ncycles idx x0) (seq 0 s) (lhs, x0).
  (** l.371-427, 434-454. *)
  Definition linear_cycle (F1 F2 P : vec I -> vec I) :=
    linear_cycle_of (rhs_physics_then_limit F1 P) (rhs_physics_then_limit F2 P).

  (** apply: x0 := x_in; for each subcycle x1 := apply_cycle(x0); x0 := x1. *)
  (** time_discretisation.py ExplicitTimeDiscretisation.apply. *)
  Definition apply_cycles (cycle : nat -> (nat -> vec I) -> vec I -> (nat -> vec I) * vec I)
    (ncycles : nat) (store : nat -> vec I) (x_in : vec I) : (nat -> vec I) * vec I :=
    fold_left (fun '(store, x0) idx => cycle idx store x0) (seq 0 ncycles) (store, x_in).

  (** l.320-343, 434-454. *)
  Definition apply_increment F P ncycles store x_in :=
    snd (apply_cycles (fun _ => increment_cycle F P) ncycles store x_in).
  (** l.345-369, 434-454. *)
  Definition apply_predictor F P ncycles store x_in :=
    snd (apply_cycles (fun _ => predictor_cycle F P) ncycles store x_in).
  (** l.371-427, 434-454. *)
  Definition apply_linear F1 F2 P ncycles store x_in :=
    snd (apply_cycles (linear_cycle F1 F2 P ncycles) ncycles store x_in).
End RK.

(** Coefficient arrays.  A list of rows; missing entries are 0. *)
(** Auxiliary, nothing in the code by itself. *)
Definition table (rows : list (list R)) : nat -> nat -> R :=
  fun i j => nth j (nth i rows []) 0.

(** ForwardEuler l.486 *)
Definition tab_ForwardEuler := table [[1]].
(** SSPRK2 l.562-585 *)
Definition tab_SSPRK2_2 := table [[1; 0]; [1/2; 1/2]].
(** l.576-582. *)
Definition tab_SSPRK2_3 := table [[1/2; 0; 0]; [1/2; 1/2; 0]; [1/3; 1/3; 1/3]].
(** l.583-590. *)
Definition tab_SSPRK2_4 := table [[1/3; 0; 0; 0]; [1/3; 1/3; 0; 0]; [1/3; 1/3; 1/3; 0]; [1/4; 1/4; 1/4; 1/4]].
(** SSPRK3 l.656-684 *)
Definition tab_SSPRK3_3 := table [[1; 0; 0]; [1/4; 1/4; 0]; [1/6; 1/6; 2/3]].
(** l.667-674. *)
Definition tab_SSPRK3_4 := table [[1/2; 0; 0; 0]; [1/2; 1/2; 0; 0]; [1/6; 1/6; 1/6; 0]; [1/6; 1/6; 1/6; 1/2]].
(** l.675-684. *)
Definition tab_SSPRK3_5 := table
  [[0.37726891511710; 0; 0; 0; 0];
   [0.37726891511710; 0.37726891511710; 0; 0; 0];
   [0.16352294089771; 0.16352294089771; 0.16352294089771; 0; 0];
   [0.14904059394856; 0.14831273384724; 0.14831273384724; 0.34217696850008; 0];
   [0.19707596384481; 0.11780316509765; 0.11709725193772; 0.27015874934251; 0.29786487010104]].
(** SSPRK4 l.738-746 *)
Definition tab_SSPRK4_5 := table
  [[0.39175222700392; 0; 0; 0; 0];
   [0.21766909633821; 0.36841059262959; 0; 0; 0];
   [0.08269208670950; 0.13995850206999; 0.25189177424738; 0; 0];
   [0.06796628370320; 0.11503469844438; 0.20703489864929; 0.54497475021237; 0];
   [0.14681187618661; 0.24848290924556; 0.10425883036650; 0.27443890091960; 0.22600748319395]].
(** RK4 l.803-808 *)
Definition tab_RK4 := table [[1/2; 0; 0; 0]; [0; 1/2; 0; 0]; [0; 0; 1; 0]; [1/6; 1/3; 1/3; 1/6]].

(** Constructors and the attribute cfl_limit: SSPRK2 l.569-592, SSPRK3 l.660-684,
    SSPRK4 l.738-748.  Result: (coefficient array, number of stages, cfl_limit). *)
Definition SSPRK2 (stages : Z) : res ((nat -> nat -> R) * nat * R) :=
  if Z.eqb stages 2 then Ok (tab_SSPRK2_2, 2%nat, 1)
  else if Z.eqb stages 3 then Ok (tab_SSPRK2_3, 3%nat, 2)
  else if Z.eqb stages 4 then Ok (tab_SSPRK2_4, 4%nat, 3)
  else Err ValueError.
(** l.660-692. *)
Definition SSPRK3 (stages : Z) : res ((nat -> nat -> R) * nat * R) :=
  if Z.eqb stages 3 then Ok (tab_SSPRK3_3, 3%nat, 1)
  else if Z.eqb stages 4 then Ok (tab_SSPRK3_4, 4%nat, 2)
  else if Z.eqb stages 5 then Ok (tab_SSPRK3_5, 5%nat, 2.65062919294483)
  else Err ValueError.
(** l.738-755. *)
Definition SSPRK4 (stages : Z) : res ((nat -> nat -> R) * nat * R) :=
  if Z.eqb stages 5 then Ok (tab_SSPRK4_5, 5%nat, 1.50818004975927) else Err ValueError.
