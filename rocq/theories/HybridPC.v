(** Model of the preconditioners of gusto/solvers/preconditioners.py: VerticalHybridizationPC (l.31-418) and SlateSchurPC (l.794-821), and of
    the Schur complement fieldsplit of PETSc that the presets of gusto/solvers/solver_presets.py ask for
    ('pc_fieldsplit_schur_fact_type': 'full').
    Matrices over any ordered field.  Simplifications: the cell-wise tensors of Slate are taken for all cells together (as block diagonal
    matrices, whose inverse is the cell-wise inverse); arithmetic and the solution of the trace system are exact. *)
From mathcomp Require Import all_ssreflect all_algebra.
Set Implicit Arguments. Unset Strict Implicit. Unset Printing Implicit Defensive.
Import GRing.Theory Num.Theory.
Local Open Scope ring_scope.

Section VerticalHybridization.
Variable F : numFieldType.
(** numbers of degrees of freedom: velocity in the broken space, pressure, velocity in the unbroken space, traces *)
Variables nb np ng nt : nat.
(** the node of the unbroken space at which a degree of freedom of the broken space (a local one of a cell) is *)
Variable node : 'I_nb -> 'I_ng.

(** AverageWeightings and AverageKernel, recovery/recovery_kernels.py l.15-105: vo[i] += v[i] / w[i] in every cell, with v and w, or vo and w, in
    the unbroken space; vo is zero before (l.353-354, 385-387) *)
Definition weight (g : 'I_ng) : F := \sum_(b | node b == g) 1.
(** l.316-330, with the weights of recovery_kernels.py l.15-105. *)
Definition to_broken (r : 'cV[F]_ng) : 'cV[F]_nb := \col_b (r (node b) 0 / weight (node b)).
(** l.365-380. *)
Definition to_unbroken (v : 'cV[F]_nb) : 'cV[F]_ng := \col_g \sum_(b | node b == g) v b 0 / weight g.

(** The forms: the blocks of the broken operator Atilde and of the trace form Kform (l.141-147, 257-262), and the traces with Dirichlet conditions (l.186-187) *)
Record hybrid := { bA : 'M[F]_nb; bB : 'M[F]_(nb, np); bC : 'M[F]_(np, nb); bD : 'M[F]_np; bK0 : 'M[F]_(nt, nb); bK1 : 'M[F]_(nt, np); trace_bc : pred 'I_nt }.
Variable H : hybrid.
(** l.141-147. *)
Definition Atilde : 'M[F]_(nb + np) := block_mx (bA H) (bB H) (bC H) (bD H).
(** l.141-147. *)
Definition Kmx : 'M[F]_(nt, nb + np) := row_mx (bK0 H) (bK1 H).
(** l.194-205: K * Atilde.inv * K.T, with the rows and columns of the boundary conditions those of the identity *)
Definition schur_comp : 'M[F]_nt := \matrix_(i, j) if trace_bc H i || trace_bc H j then (i == j)%:R else (Kmx *m invmx Atilde *m Kmx^T) i j.
(** l.190-192 *)
Definition schur_rhs (r : 'cV[F]_(nb + np)) : 'cV[F]_nt := Kmx *m (invmx Atilde *m r).
(** _reconstruction_calls, l.266-289 *)
Definition recovered_pressure (g : 'cV[F]_nb) (f : 'cV[F]_np) (lambda : 'cV[F]_nt) : 'cV[F]_np :=
  let M := bD H - bC H *m invmx (bA H) *m bB H in
  let R := (bK1 H)^T - bC H *m invmx (bA H) *m (bK0 H)^T in
  invmx M *m (f - bC H *m invmx (bA H) *m g - R *m lambda).
(** l.266-289. *)
Definition recovered_velocity (g : 'cV[F]_nb) (u : 'cV[F]_np) (lambda : 'cV[F]_nt) : 'cV[F]_nb :=
  invmx (bA H) *m (g - bB H *m u - (bK0 H)^T *m lambda).
(** apply, l.316-392: the residual (g, f) of velocity and pressure; the result for the solution lambda of the trace system *)
Definition trace_solution (g : 'cV[F]_ng) (f : 'cV[F]_np) (lambda : 'cV[F]_nt) : Prop := schur_comp *m lambda = schur_rhs (col_mx (to_broken g) f).
(** apply, l.311-382. *)
Definition apply_pc (g : 'cV[F]_ng) (f : 'cV[F]_np) (lambda : 'cV[F]_nt) : 'cV[F]_ng * 'cV[F]_np :=
  let u := recovered_pressure (to_broken g) f lambda in
  (to_unbroken (recovered_velocity (to_broken g) u lambda), u).
End VerticalHybridization.

(** ** The subdomains of the traces, l.149-187.  Boundary conditions are on "top", "bottom" or on numbered lateral subdomains.
    The result: the boundary parts with a constraint (measures) and those with a Dirichlet condition for the trace *)
Inductive subdomain := Top | Bottom | Lateral of nat.
(** Auxiliary, nothing in the code by itself. *)
Definition is_top s := if s is Top then true else false.
(** Auxiliary, nothing in the code by itself. *)
Definition is_bottom s := if s is Bottom then true else false.
(** l.149-187. *)
Definition subdomains (row_bcs : seq subdomain) (markers : seq nat) : seq subdomain * seq subdomain :=
  if row_bcs is [::] then ([::], [:: Top; Bottom]) else
  let top := has is_top row_bcs in let bottom := has is_bottom row_bcs in
  let extruded := (if bottom then [:: Bottom] else [::]) ++ (if top then [:: Top] else [::]) in
  let missing := (if bottom then [::] else [:: Bottom]) ++ (if top then [::] else [:: Top]) in
  let lateral := [seq Lateral m | m <- markers & has (fun s => if s is Lateral k then k == m else false) row_bcs] in
  let other := [seq Lateral m | m <- markers & ~~ has (fun s => if s is Lateral k then k == m else false) row_bcs] in
  (extruded ++ lateral, flatten [seq missing | _ <- extruded] ++ other).

(** ** Schur complements *)
Section Schur.
Variable F : fieldType.
Variables n0 n1 : nat.
Variables (A00 : 'M[F]_n0) (A01 : 'M[F]_(n0, n1)) (A10 : 'M[F]_(n1, n0)) (A11 : 'M[F]_n1).
(** SlateSchurPC.form, l.809-814 *)
Definition slate_schur : 'M[F]_n1 := A11 - A10 *m invmx A00 *m A01.
(** PCFIELDSPLIT of PETSc, factorisation 'full', with exact solution of the first block and the matrix S for the Schur complement *)
(** The presets of solver_presets.py l.60-141 with pc_fieldsplit_schur_fact_type full. *)
Definition fieldsplit_full (S : 'M[F]_n1) (r0 : 'cV[F]_n0) (r1 : 'cV[F]_n1) : 'cV[F]_n0 * 'cV[F]_n1 :=
  let y0 := invmx A00 *m r0 in
  let x1 := invmx S *m (r1 - A10 *m y0) in
  (y0 - invmx A00 *m (A01 *m x1), x1).
End Schur.
(** the fields of the blocks of SlateSchurPC, l.801-811: blocks[:nf0] and blocks[nf0]; nf0 is 1 unless the option nfields0 is given *)
Definition slate_blocks (nfields0 : option nat) : seq nat * seq nat := let nf0 := odflt 1%N nfields0 in (iota 0 nf0, [:: nf0]).
(** solver_presets.py l.118-141: pc_fieldsplit_0_fields, pc_fieldsplit_1_fields and slate_schur_nfields0 of the compressible Euler equations *)
Definition compressible_split : seq nat * seq nat := ([:: 0; 1], [:: 2])%N.
(** solver_presets.py l.118-141. *)
Definition compressible_nfields0 : option nat := Some 2%N.
