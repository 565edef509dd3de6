(** Model of the SDC class of gusto/time_discretisation/deferred_correction.py (l.98-541)
    and of Parallel_SDC of parallel_dc.py (l.216-404).

    The equation is M dy/dt + Li(y) + Le(y) + Ls(source(y)) = 0 with the terms labelled
    implicit, explicit and source; the inverse of the mass matrix is folded into the
    operators.  Node solves are relations: any vector with zero residual.  Modelled
    without a limiter. *)
From Verif Require Import Base Vec.
Open Scope R_scope.

Section SDC.
  Context {I : Type}.
  Variable M : nat.
  (** the matrices after rescaling by dt, l.162-169: Q (in the chosen form), Qdelta_imp,
      Qdelta_exp, and the weights *)
  Variables Q Qi Qe : nat -> nat -> R.
  Variable Qfin : nat -> R.
  Variables Li Le Ls : vec I -> vec I.

  (** res_rhs, l.263-277: Urhs = L(Uin) + L_source *)
  Definition rhs (y : vec I) : vec I := Li y +v Le y +v Ls y.
  (** compute_quad, l.245-252; compute_quad_final, l.254-260 *)
  Definition quad (U : nat -> vec I) (m : nat) : vec I := vsum M (fun j => Q m j *v rhs (U (S j))).
  (** l.261-268. *)
  Definition quad_final (U : nat -> vec I) : vec I := vsum M (fun j => Qfin j *v rhs (U (S j))).

  (** res(m), l.303-407: the residual at node m (0-based) of the candidate Y, given the
      start value, the current contents of Unodes and Unodes1 and the quadrature term *)
  Definition node_residual (m : nat) (Ustart : vec I) (U U1 : nat -> vec I) (Qm Y : vec I) : vec I :=
    Y -v Ustart
    +v vsum m (fun i => Qi m i *v (Li (U1 (S i)) -v Li (U (S i))))
    +v vsum M (fun i => Qe m i *v (Le (U1 (S i)) -v Le (U (S i))) +v Qe m i *v (Ls (U1 (S i)) -v Ls (U (S i))))
    +v Qi m m *v (Li Y -v Li (U (S m)))
    +v Qm.

  (** l.120-196, 435-541. *)
  Inductive formulation := N2N | Z2N.

  (** One correction sweep, l.478-523.  [Uold]: what Unodes1 holds before the sweep (the
      previous sweep's values, or, in the first sweep, those of the last sweep of the
      previous time step, or zero).  While node m is solved the entries 0..m of Unodes1
      are new, the others old. *)
  Definition current (Uold U1 : nat -> vec I) (m : nat) : nat -> vec I := fun i => if Nat.leb i m then U1 i else Uold i.
  (** l.435-541. *)
  Definition sweep (form : formulation) (Uold U U1 : nat -> vec I) : Prop :=
    U1 O = U O /\
    forall m, (m < M)%nat ->
      node_residual m (match form with N2N => U1 m | Z2N => U O end) U (current Uold U1 m) (quad U m) (U1 (S m)) = vzero.

  (** final update, l.525-541 and res_fin, l.280-300 *)
  Definition final_update (U : nat -> vec I) (y : vec I) : Prop := y -v U O +v quad_final U = vzero.

  (** k sweeps: after each sweep Unodes and Unodes1 agree, l.521-523 *)
  Fixpoint sweeps (form : formulation) (k : nat) (Uold U U' : nat -> vec I) : Prop :=
    match k with
    | O => U' = U
    | S n => exists U1, sweep form Uold U U1 /\ sweeps form n U1 U1 U'
    end.

  (** ** Parallel_SDC.apply, l.279-404: rank r only updates its own entry r+1 of Unodes
      and Unodes1; the others keep the initial guess (Unodes) and the old contents
      (Unodes1) on that rank.  The reductions compute the same sum (up to the order of
      the summands).  [W r], [Z r]: Unodes and Unodes1 of rank r. *)
  Definition par_sweep (W Z W' Z' : nat -> nat -> vec I) : Prop :=
    forall r, (r < M)%nat ->
      (* compute_quad, l.262-270: node j's sum, reduced to rank j *)
      let q := vsum M (fun j => Q r j *v rhs (W j (S j))) in
      node_residual r (W r O) (W r) (fun i => if Nat.eqb i 0 then W r O else Z r i) q (Z' r (S r)) = vzero /\
      (forall i, i <> S r -> Z' r i = if Nat.eqb i 0 then W r O else Z r i) /\
      (forall i, W' r i = if Nat.eqb i (S r) then Z' r (S r) else W r i).
  (** parallel_dc.py l.296-400. *)
  Fixpoint par_sweeps (k : nat) (W Z W' : nat -> nat -> vec I) : Prop :=
    match k with
    | O => W' = W
    | S n => exists W1 Z1, par_sweep W Z W1 Z1 /\ par_sweeps n W1 Z1 W'
    end.
End SDC.
