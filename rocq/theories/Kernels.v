(** Model of gusto/core/kernels.py, of the limiters of gusto/spatial_methods/limiters.py
    and of MeanMixingRatio.limit (gusto/spatial_methods/augmentation.py l.386-421).

    Nodal values are reals (no NaN); fmin and fmax are Rmin and Rmax.  A par_loop visits
    the cells in some order; each visit gathers the values of the cell's nodes, runs the
    kernel and scatters what it wrote.  The vertex-based limiter of Firedrake and the
    interpolations are not modelled: the limited linear field is an arbitrary argument. *)
From Verif Require Import Base.
From Coq Require Export Reals Lra.
Close Scope Q_scope.
Open Scope R_scope.

(** Auxiliary, nothing in the code by itself. *)
Definition arr := nat -> R.
(** Auxiliary, nothing in the code by itself. *)
Definition put (a : arr) (i : nat) (v : R) : arr := fun j => if Nat.eqb j i then v else a j.

(** ** LimitMidpoints, kernels.py l.38-72: the kernel on one cell with [n] base nodes *)
Definition limit_column (dg1 old : arr) (hat : arr) (i : nat) : arr :=
  let hat := put hat (i * 3 + 2 * 0) (dg1 (i * 2 + 0)%nat) in
  let hat := put hat (i * 3 + 2 * 1) (dg1 (i * 2 + 1)%nat) in
  let max_value := Rmax (dg1 (i * 2)%nat) (dg1 (i * 2 + 1)%nat) in
  let min_value := Rmin (dg1 (i * 2)%nat) (dg1 (i * 2 + 1)%nat) in
  if Rlt_dec max_value (old (i * 3 + 1)%nat) then put hat (i * 3 + 1) (1 / 2 * (dg1 (i * 2)%nat + dg1 (i * 2 + 1)%nat))
  else if Rlt_dec (old (i * 3 + 1)%nat) min_value then put hat (i * 3 + 1) (1 / 2 * (dg1 (i * 2)%nat + dg1 (i * 2 + 1)%nat))
  else put hat (i * 3 + 1) (old (i * 3 + 1)%nat).
(** LimitMidpoints.apply, kernels.py l.62-78. *)
Definition limit_midpoints (n : nat) (hat dg1 old : arr) : arr :=
  fold_left (limit_column dg1 old) (seq 0 n) hat.

(** ** ClipZero, kernels.py l.81-114, called in place (limiters.py l.201-206): cells are
    lists of global node numbers, possibly shared *)
Definition clip_cell (field : arr) (cell : list nat) : arr :=
  (* gather first, then write every node of the cell *)
  fold_left (fun f i => put f i (if Rlt_dec (field i) 0 then 0 else field i)) cell field.
(** ClipZero.apply, kernels.py l.104-114. *)
Definition clip_zero (cells : list (list nat)) (field : arr) : arr := fold_left clip_cell cells field.

(** ZeroLimiter.apply, limiters.py l.188-206, with a clipping space: [down] and [up] are
    the interpolations to the clipping space and back *)
Definition zero_limiter (cells : list (list nat)) (maps : option ((arr -> arr) * (arr -> arr))) (field : arr) : arr :=
  match maps with
  | None => clip_zero cells field
  | Some (down, up) => up (clip_zero cells (down field))
  end.

(** ** MeanMixingRatioWeights, kernels.py l.136-149, on one cell: [vals] nodal values *)
Definition cell_min (vals : list R) : R := fold_left (fun m v => Rmin m v) vals 0.
(** kernels.py l.136-149. *)
Definition weight (lamda : R) (vals : list R) (mean : R) : R :=
  let mn := cell_min vals in
  if Rlt_dec mn 0 then Rmax lamda (- mn / (mean - mn)) else lamda.
(** MeanLimiter.apply, limiters.py l.321-350, on one cell: the list of (mixing ratio
    values, mean) of all fields; the same weight for all *)
Definition cell_weight (fields : list (list R * R)) : R := fold_left (fun l f => weight l (fst f) (snd f)) fields 0.
(** augmentation.py l.386-421, limiters.py l.321-349. *)
Definition blend (lamda mean v : R) : R := (1 - lamda) * v + lamda * mean.
(** limiters.py l.321-349. *)
Definition mean_limiter (fields : list (list R * R)) : list (list R) :=
  map (fun f => map (blend (cell_weight fields) (snd f)) (fst f)) fields.

(** ConservativeProjector onto DG0 in one cell (augmentation.py l.404-408): the mean
    weighted with the integrals [w] of density times basis function *)
Fixpoint dot (w v : list R) : R := match w, v with a :: w', b :: v' => a * b + dot w' v' | _, _ => 0 end.
(** Auxiliary, nothing in the code by itself. *)
Fixpoint total (w : list R) : R := match w with a :: w' => a + total w' | [] => 0 end.
(** augmentation.py l.404-408. *)
Definition cell_mean (w v : list R) : R := dot w v / total w.
(** MeanMixingRatio.limit, augmentation.py l.386-421, on one cell: (weights, values) *)
Definition mmr_limit (fields : list (list R * list R)) : list (list R) :=
  mean_limiter (map (fun f => (snd f, let mn := cell_mean (fst f) (snd f) in if Rlt_dec mn 0 then 0 else mn)) fields).

(** ** Constructor guards *)
(** limiters.py l.46-51, 280-289. *)
Inductive degree := DInt (n : nat) | DTuple (l : list nat).
(** type(degree) is tuple and np.any([deg != 1 ...]) and degree != 1, limiters.py l.46-51 *)
Definition bad_degree (d : degree) : bool :=
  match d with
  | DInt _ => false
  | DTuple l => existsb (fun n => negb (Nat.eqb n 1)) l (* and a tuple is never equal to 1 *)
  end.
(** DG1Limiter.__init__, l.46-51 *)
Definition dg1_limiter_init (sobolev : string) (d : degree) : res unit :=
  if negb (String.eqb sobolev "L2") || bad_degree d then Err ValueError else Ok tt.
(** MeanLimiter.__init__, l.280-289 *)
Fixpoint mean_limiter_check (spaces : list (string * degree)) : res unit :=
  match spaces with
  | [] => Ok tt
  | (s, d) :: r => if negb (String.eqb s "L2") || bad_degree d then Err NotImplementedError else mean_limiter_check r
  end.
(** limiters.py l.266-300. *)
Definition mean_limiter_init (spaces : list (string * degree)) : res unit :=
  match mean_limiter_check spaces with
  | Err e => Err e
  | Ok _ => match spaces with [] => Err IndexError | _ => Ok tt end
  end.
(** ThetaLimiter.__init__, l.108-118 *)
Definition theta_limiter_init (extruded : bool) (families : list string) (d : degree) : res unit :=
  if negb extruded then Err ValueError else
  match families with
  | f0 :: f1 :: _ =>
      if negb (existsb (String.eqb f0) ["Discontinuous Lagrange"; "DQ"]%string) || negb (String.eqb f1 "Lagrange") ||
         negb (match d with DTuple [1%nat; 2%nat] => true | _ => false end)
      then Err ValueError else Ok tt
  | _ => Err IndexError
  end.

(** ** MixedFSLimiter, limiters.py l.230-267: [sub] is the dict in insertion order *)
Section Mixed.
  Context {F : Type}.
  (** Auxiliary, nothing in the code by itself. *)
  Fixpoint index_of (x : string) (l : list string) : option nat :=
    match l with [] => None | y :: l' => if String.eqb x y then Some 0%nat else option_map S (index_of x l') end.
  (** __init__, l.247-253 *)
  Fixpoint mixed_init (names : list string) (sub : list (string * (F -> F))) : res (list (nat * (F -> F))) :=
    match sub with
    | [] => Ok []
    | (n, f) :: r => match index_of n names with
                     | None => Err ValueError
                     | Some i => do l <- mixed_init names r; Ok ((i, f) :: l)
                     end
    end.
  (** Auxiliary, nothing in the code by itself. *)
  Fixpoint app_at (i : nat) (f : F -> F) (l : list F) : list F :=
    match l, i with x :: r, O => f x :: r | x :: r, S k => x :: app_at k f r | [], _ => [] end.
  (** apply, l.255-263 *)
  Definition mixed_apply (idx : list (nat * (F -> F))) (fields : list F) : list F :=
    fold_left (fun fs e => app_at (fst e) (snd e) fs) idx fields.
End Mixed.

(** ** MinKernel and MaxKernel, kernels.py l.169-239: a reduction over the values in any
    order, started from the largest (smallest) double; ranks are combined by MPI *)
Definition minify (a b : R) : R := if Rgt_dec a b then b else a.
(** kernels.py l.198-221. *)
Definition maxify (a b : R) : R := if Rlt_dec a b then b else a.
(** MinKernel, kernels.py l.166-192. *)
Definition min_kernel (big : R) (ranks : list (list R)) : R :=
  fold_left minify (map (fun l => fold_left minify l big) ranks) big.
(** MaxKernel, kernels.py l.195-221. *)
Definition max_kernel (small : R) (ranks : list (list R)) : R :=
  fold_left maxify (map (fun l => fold_left maxify l small) ranks) small.
