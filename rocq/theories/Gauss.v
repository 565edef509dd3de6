(** Model of the kernel BoundaryGaussianElimination (gusto/recovery/recovery_kernels.py
    l.240-521): effective coordinates, Gaussian elimination with partial pivoting, back
    substitution, evaluation at the actual coordinates.  Exact arithmetic over R. *)
From Verif Require Import Base.
From Coq Require Import Reals Lra.
Open Scope R_scope.

(** Auxiliary, nothing in the code by itself. *)
Definition mat := nat -> nat -> R.
(** Auxiliary, nothing in the code by itself. *)
Definition colv := nat -> R.
(** Auxiliary, nothing in the code by itself. *)
Definition setv (a : colv) (j : nat) (v : R) : colv := fun k => if Nat.eqb k j then v else a k.
(** Auxiliary, nothing in the code by itself. *)
Definition setm (A : mat) (r c : nat) (v : R) : mat := fun i j => if Nat.eqb i r && Nat.eqb j c then v else A i j.

(** the search for the largest entry of column ii (l.386-401) *)
Definition find_pivot (n : nat) (A : mat) (ii : nat) : nat :=
  fst (fold_left (fun '(im, am) jj =>
         (if Rlt_dec am (Rabs (A jj ii)) then jj else im, Rmax am (Rabs (A jj ii))))
       (seq (S ii) (n - S ii)) (ii, Rabs (A ii ii))).
(** swapping rows ii and i_max: f, and A from column ii on (l.404-423) *)
Definition swap_f (ii im : nat) (f : colv) : colv := fun r => if Nat.eqb r ii then f im else if Nat.eqb r im then f ii else f r.
(** l.404-423. *)
Definition swap_A (ii im : nat) (A : mat) : mat := fun r c =>
  if Nat.leb ii c then (if Nat.eqb r ii then A im c else if Nat.eqb r im then A ii c else A r c) else A r c.
(** eliminating column ii from the rows below, one after the other (l.426-442); the factor
    c is computed before row ll is changed *)
Definition eliminate_row (n : nat) (ii : nat) (s : mat * colv) (ll : nat) : mat * colv :=
  let '(A, f) := s in
  let c := - A ll ii / A ii ii in
  (fold_left (fun A mm => setm A ll mm (A ll mm + c * A ii mm)) (seq 0 n) A, setv f ll (f ll + c * f ii)).
(** l.383-443. *)
Definition gauss_step (n : nat) (s : mat * colv) (ii : nat) : mat * colv :=
  let '(A, f) := s in
  let im := find_pivot n A ii in
  let s := if Nat.eqb im ii then (A, f) else (swap_A ii im A, swap_f ii im f) in
  fold_left (eliminate_row n ii) (seq (S ii) (n - S ii)) s.
(** l.383-443. *)
Definition triangulate (n : nat) (A : mat) (f : colv) : mat * colv := fold_left (gauss_step n) (seq 0 n) (A, f).
(** back substitution (l.447-463): jjj runs from the last row upwards; a starts as zero *)
Definition back_step (n : nat) (A : mat) (f : colv) (a : colv) (iii : nat) : colv :=
  let j := (n - iii - 1)%nat in
  let v := fold_left (fun v k => if Nat.ltb (n - iii - 1) k then v - A j k * a k else v) (seq 0 n) (f j) in
  setv a j (v / A j j).
(** l.447-463. *)
Definition back_substitute (n : nat) (A : mat) (f : colv) : colv := fold_left (back_step n A f) (seq 0 n) (fun _ => 0).
(** l.383-463. *)
Definition gauss_solve (n : nat) (A : mat) (f : colv) : colv := let '(T, g) := triangulate n A f in back_substitute n T g.

(** ** The Taylor basis: eff_coord_expr and act_coord_expr (l.282-335).  A point has up to three
    coordinates; {dim}-1 is the index of the last one. *)
Definition point := nat -> R.
(** l.282-335. *)
Definition basis (nDOFs dim : nat) (p : point) (k : nat) : R :=
  let x := p 0%nat in let y := p 1%nat in let z := p (dim - 1)%nat in
  match nDOFs, k with
  | _, 0%nat => 1
  | _, 1%nat => x
  | 3%nat, 2%nat => y
  | 4%nat, 2%nat => y | 4%nat, 3%nat => x * y
  | 6%nat, 2%nat => y | 6%nat, 3%nat => z | 6%nat, 4%nat => x * z | 6%nat, 5%nat => y * z
  | 8%nat, 2%nat => y | 8%nat, 3%nat => x * y | 8%nat, 4%nat => z | 8%nat, 5%nat => x * z | 8%nat, 6%nat => y * z | 8%nat, 7%nat => x * y * z
  | _, _ => 0
  end.
(** act_coord_expr: the sum of a[k] * basis k *)
(** l.466-480. *)
Definition expand (nDOFs dim : nat) (a : colv) (p : point) : R :=
  let x := p 0%nat in let y := p 1%nat in let z := p (dim - 1)%nat in
  match nDOFs with
  | 2%nat => a 0%nat + a 1%nat * x
  | 3%nat => a 0%nat + a 1%nat * x + a 2%nat * y
  | 4%nat => a 0%nat + a 1%nat * x + a 2%nat * y + a 3%nat * x * y
  | 6%nat => a 0%nat + a 1%nat * x + a 2%nat * y + a 3%nat * z + a 4%nat * x * z + a 5%nat * y * z
  | 8%nat => a 0%nat + a 1%nat * x + a 2%nat * y + a 3%nat * x * y + a 4%nat * z + a 5%nat * x * z + a 6%nat * y * z + a 7%nat * x * y * z
  | _ => 0
  end.
(** the kernel on one cell (l.366-480): old values, effective and actual coordinates of its
    degrees of freedom, and the number of exterior nodes *)
Definition boundary_kernel (nDOFs dim : nat) (num_ext : R) (old : colv) (eff act : nat -> point) : colv :=
  if Rlt_dec 0 num_ext then
    let a := gauss_solve nDOFs (fun i => basis nDOFs dim (eff i)) old in
    fun i => expand nDOFs dim a (act i)
  else old.
