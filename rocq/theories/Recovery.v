(** Model of the averaging operator and of the two boundary recovery methods on extruded meshes
    and on intervals (gusto/recovery/averaging.py, recovery_kernels.py l.15-243, recovery.py).
    Exact arithmetic over R.  A field is a function of the node; the nodes are of any type with a
    decidable equality.  A mesh is the list of its cells, a cell the list of its nodes (the
    cell-node map of the PyOP2 par_loop). *)
From Verif Require Import Base Gauss.
From Coq Require Import Reals Lra.
Open Scope R_scope.

Section Nodes.
Context {N : Type} (eqb : N -> N -> bool).
(** Auxiliary, nothing in the code by itself. *)
Definition field := N -> nat -> R.   (* node, component *)
(** Auxiliary, nothing in the code by itself. *)
Definition addf (w : field) (g : N) (j : nat) (v : R) : field := fun g' j' => if eqb g' g && Nat.eqb j' j then w g' j' + v else w g' j'.

(** AverageWeightings (l.64-105): w[i,j] = w[i,j] + 1.0, incremented over all cells, starting from
    a new Function, i.e. zero (averaging.py _weighting l.59-67) *)
Definition weights (dim : nat) (nodes : list (list N)) : field :=
  fold_left (fun w cell => fold_left (fun w g => fold_left (fun w j => addf w g j 1) (seq 0 dim) w) cell w) nodes (fun _ _ => 0).
(** a cell with the values of the broken field at its nodes, component by component *)
(** Auxiliary, nothing in the code by itself. *)
Definition bcell := list (N * (nat -> R)).
(** AverageKernel (l.15-61): vo[i,j] = vo[i,j] + v[i,j] / w[i,j] over all cells; Averager.project
    (averaging.py l.69-74) zeroes v_out first, whatever it held *)
Definition average_kernel (dim : nat) (mesh : list bcell) (w vo : field) : field :=
  fold_left (fun vo cell => fold_left (fun vo p => fold_left (fun vo j => addf vo (fst p) j (snd p j / w (fst p) j)) (seq 0 dim) vo) cell vo) mesh vo.
(** averaging.py l.60-80. *)
Definition average (dim : nat) (mesh : list bcell) (v_out : field) : field :=
  let zeroed := fun (_ : N) (_ : nat) => 0 in
  average_kernel dim mesh (weights dim (map (map fst) mesh)) zeroed.

(** A par_loop with WRITE access over scalar fields: each cell reads the values at its nodes into
    a local array, runs the kernel and writes the local output back to its nodes, in order. *)
(** Auxiliary, nothing in the code by itself. *)
Definition write_local (out : nat -> R) (cell : list N) (x : N -> R) : N -> R :=
  fold_left (fun x p => fun g => if eqb g (snd p) then out (fst p) else x g) (combine (seq 0 (length cell)) cell) x.
(** Auxiliary, nothing in the code by itself. *)
Definition gather (x : N -> R) (cell : list N) (d : N) : nat -> R := fun k => x (nth k cell d).
(** Auxiliary, nothing in the code by itself. *)
Definition par_loop (kernel : (nat -> R) -> nat -> R) (cells : list (list N)) (d : N) (x_in x_out : N -> R) : N -> R :=
  fold_left (fun x cell => write_local (kernel (gather x_in cell d)) cell x) cells x_out.
End Nodes.

(** ** Extruded meshes: the nodes are pairs (node of the base mesh, level 0..L); the cell of layer
    l over a base cell has its nodes ordered up the column: (b0,l),(b0,l+1),(b1,l),... *)
(** Auxiliary, nothing in the code by itself. *)
Definition node := (nat * nat)%type.
(** Auxiliary, nothing in the code by itself. *)
Definition node_eqb (p q : node) : bool := Nat.eqb (fst p) (fst q) && Nat.eqb (snd p) (snd q).
(** Auxiliary, nothing in the code by itself. *)
Definition layer_cell (base : list nat) (l : nat) : list node := flat_map (fun b => [(b, l); (b, S l)]) base.

(** BoundaryRecoveryExtruded (l.108-167): the kernels of the top and bottom layers *)
Definition top_kernel (x_in : nat -> R) (k : nat) : R :=
  let i := Nat.div2 k in if Nat.even k then x_in (2*i)%nat else - x_in (2*i)%nat + 2 * x_in (2*i+1)%nat.
(** recovery_kernels.py l.108-167. *)
Definition bot_kernel (x_in : nat -> R) (k : nat) : R :=
  let i := Nat.div2 k in if Nat.even k then 2 * x_in (2*i)%nat - x_in (2*i+1)%nat else x_in (2*i+1)%nat.
(** BoundaryRecoverer.apply (recovery.py l.150-160), method extruded: x_tmp is a copy of x, then the
    top par_loop and the bottom par_loop write into x *)
Definition extruded_apply (base : list (list nat)) (L : nat) (x : node -> R) : node -> R :=
  let x_tmp := x in
  let x := par_loop node_eqb top_kernel (map (fun c => layer_cell c (L - 1)) base) (0, 0)%nat x_tmp x in
  par_loop node_eqb bot_kernel (map (fun c => layer_cell c 0) base) (0, 0)%nat x_tmp x.
(** BoundaryRecoveryHCurl (l.170-243): the same formulas for the horizontal degrees of freedom, the
    vertical ones (from index 2*ndofs_hori_base on) are copied *)
Definition hcurl_kernel (k1 : (nat -> R) -> nat -> R) (nh : nat) (x_in : nat -> R) (k : nat) : R :=
  if Nat.ltb k (2 * nh) then k1 x_in k else x_in k.
(** the degrees of freedom of an HCurl space: horizontal ones (edge, level) and vertical ones
    (node, layer); a cell lists the horizontal ones first *)
(** Auxiliary, nothing in the code by itself. *)
Inductive hdof := Hori (e l : nat) | Vert (b l : nat).
(** Auxiliary, nothing in the code by itself. *)
Definition hdof_eqb (p q : hdof) : bool :=
  match p, q with Hori a b, Hori c d => Nat.eqb a c && Nat.eqb b d | Vert a b, Vert c d => Nat.eqb a c && Nat.eqb b d | _, _ => false end.
(** Auxiliary, nothing in the code by itself. *)
Definition hcurl_cell (nh : nat) (c : list nat * list nat) (l : nat) : list hdof :=
  map (fun p => Hori (fst p) (snd p)) (layer_cell (fst c) l) ++ map (fun b => Vert b l) (snd c).
(** recovery.py l.150-160; recovery_kernels.py l.170-243. *)
Definition hcurl_apply (base : list (list nat * list nat)) (nh L : nat) (x : hdof -> R) : hdof -> R :=
  let x_tmp := x in
  let x := par_loop hdof_eqb (hcurl_kernel top_kernel nh) (map (fun c => hcurl_cell nh c (L - 1)) base) (Hori 0 0) x_tmp x in
  par_loop hdof_eqb (hcurl_kernel bot_kernel nh) (map (fun c => hcurl_cell nh c 0) base) (Hori 0 0) x_tmp x.

(** Recoverer.project (recovery.py l.283-310) for a field constant in each cell (DG0), method
    interpolate: the value of the cell is taken at all its nodes, then averaged, then corrected.
    q c l is the value in layer l over the c-th base cell. *)
Definition broken_dg0 (base : list (list nat)) (L : nat) (q : nat -> nat -> R) : list (list (node * (nat -> R))) :=
  flat_map (fun cb => map (fun l => map (fun g => (g, fun _ => q (fst cb) l)) (layer_cell (snd cb) l)) (seq 0 L)) (combine (seq 0 (length base)) base).
(** recovery.py l.283-310. *)
Definition recover_extruded (base : list (list nat)) (L : nat) (q : nat -> nat -> R) (x_out : node -> R) : node -> R :=
  let avg := average node_eqb 1 (broken_dg0 base L q) (fun g _ => x_out g) in
  extruded_apply base L (fun g => avg g 0%nat).

(** ** An interval of M cells with nodes 0..M: method taylor.  find_eff_coords (recovery.py l.371-386) averages
    the cell midpoints (the DG0 projection of x); correct_eff_coords (l.389-432) adds coordinates minus averaged
    coordinates, which is zero for a continuous coordinate field; find_domain_boundaries (l.435-465)
    interpolates the indicator of the boundary nodes at the cell centre. *)
Definition interval_cell (c : nat) : list nat := [c; S c].
(** averaging.py l.29-80, on an interval. *)
Definition interval_broken (M : nat) (v : nat -> nat -> R) : list (list (nat * (nat -> R))) :=
  map (fun c => map (fun g => (g, fun _ => v c g)) (interval_cell c)) (seq 0 M).
(** averaging.py l.60-80. *)
Definition averaged (M : nat) (v : nat -> nat -> R) (x_out : nat -> R) : nat -> R := fun g => average Nat.eqb 1 (interval_broken M v) (fun g _ => x_out g) g 0%nat.
(** find_eff_coords, recovery.py l.313-386. *)
Definition eff_coord (M : nat) (X : nat -> R) : nat -> R := averaged M (fun c _ => (X c + X (S c)) / 2) (fun _ => 0).
(** find_domain_boundaries, recovery.py l.435-460. *)
Definition indicator (M g : nat) : R := if Nat.eqb g 0 || Nat.eqb g M then 1 else 0.
(** recovery.py l.60-148. *)
Definition num_exterior (M c : nat) : R := (indicator M c + indicator M (S c)) / 2.
(** recovery.py l.150-160. *)
Definition taylor_apply (M : nat) (X : nat -> R) (x : nat -> R) : nat -> R :=
  averaged M (fun c g => boundary_kernel 2 1 (num_exterior M c) (fun i => x (c + i)%nat) (fun i _ => eff_coord M X (c + i)%nat) (fun i _ => X (c + i)%nat) (g - c)%nat) x.
(** recovery.py l.283-310. *)
Definition recover_taylor (M : nat) (X : nat -> R) (q : nat -> R) (x_out : nat -> R) : nat -> R :=
  taylor_apply M X (averaged M (fun c _ => q c) x_out).
