(** Model of Coordinates.get_column_data and set_field_from_column_data
    (gusto/core/coordinates.py l.111-239).

    A rank's data frame (l.160-170) is a list of rows; coordinates are the values after the
    rounding of l.142-154 (the rounding itself is not modelled: what it must achieve is that
    the degrees of freedom of a column get equal horizontal coordinates).  In two dimensions
    there is no Y column: it is modelled as constant 0, which leaves the order unchanged. *)
From Verif Require Import Base.
From Coq Require Import Reals Lra.
Open Scope R_scope.

(** A row of the data frame, coordinates.py l.158-164. *)
Record row := { fld : R; cX : R; cY : R; cZ : R; idx : nat }.
(** l.174, 180: sort_values(by=['X', 'Y', 'Z']) *)
Definition row_le (a b : row) : Prop :=
  cX a < cX b \/ (cX a = cX b /\ (cY a < cY b \/ (cY a = cY b /\ cZ a <= cZ b))).
(** numpy.isclose(a, b) with the default tolerances: |a - b| <= 1e-8 + 1e-5 |b| *)
(** numpy.isclose, used at l.169-175. *)
Definition isclose (a b : R) : bool := if Rle_dec (Rabs (a - b)) (1/100000000 + 1/100000 * Rabs b) then true else false.
(** l.175-177, 181-182 *)
Definition near_first (first r : row) : bool := isclose (cX r) (cX first) && isclose (cY r) (cY first).
(** l.158-164. *)
Definition frame_of (X Y Z field : list R) : list row :=
  map (fun '(i, (f, (x, (y, z)))) => {| fld := f; cX := x; cY := y; cZ := z; idx := i |})
      (combine (seq 0 (length field)) (combine field (combine X (combine Y Z)))).
(** l.186: None stands for the exception raised by a rank without degrees of freedom (l.143:
    numpy.max of an empty array) *)
Definition num_levels (d : list row) : option nat :=
  match d with [] => None | f :: _ => Some (length (filter (near_first f) d)) end.
(** l.187 *)
Definition local_ok (d : list row) (n : nat) : bool := Nat.eqb (Nat.modulo (length d) n) 0.

(** Auxiliary, nothing in the code by itself. *)
Definition array := nat -> nat -> R.
(** Auxiliary, nothing in the code by itself. *)
Definition iarray := nat -> nat -> nat.
(** Auxiliary, nothing in the code by itself. *)
Definition row0 := {| fld := 0; cX := 0; cY := 0; cZ := 0; idx := 0 |}.
(** l.201, 212-219: entry (h, l) is element l + h * num_levels of the sorted frame *)
Definition columns (d : list row) (n : nat) : nat * array * iarray :=
  (Nat.div (length d) n,
   fun h l => fld (nth (l + h * n) d row0),
   fun h l => idx (nth (l + h * n) d row0)).

(** The collective outcome: frames are the sorted frames of all ranks.  A rank without data
    raises before the reduction, and the others never return from it. *)
(** What get_column_data gives on a rank, l.180-219. *)
Inductive outcome := Columns (n : nat) (c : nat * array * iarray) | Raises (e : exn) | Hangs.
(** l.111-219; global_ok is an allreduce over all ranks (l.184). *)
Definition get_column_data (frames : list (list row)) : list outcome :=
  let ns := map num_levels frames in
  if existsb (fun n => match n with None => true | _ => false end) ns
  then map (fun n => match n with None => Raises ValueError | Some _ => Hangs end) ns
  else
    let ok := forallb (fun d => match num_levels d with Some n => local_ok d n | None => false end) frames in
    map (fun d => match num_levels d with
                  | Some n => if ok then Columns n (columns d n) else Raises RuntimeError
                  | None => Raises ValueError end) frames.

(** l.235-237: for each level, field.dat.data[index_data[:, lev]] = columnwise_data[:, lev] *)
Fixpoint update (l : list R) (i : nat) (v : R) : list R :=
  match l, i with [] , _ => [] | _ :: r, O => v :: r | a :: r, S i => a :: update r i v end.
(** The assignments of the loop l.235-237. *)
Definition assignments (H L : nat) (data : array) (index : iarray) : list (nat * R) :=
  flat_map (fun l => map (fun h => (index h l, data h l)) (seq 0 H)) (seq 0 L).
(** l.221-238. *)
Definition set_field_from_column_data (H L : nat) (field : list R) (data : array) (index : iarray) : list R :=
  fold_left (fun f '(i, v) => update f i v) (assignments H L data index) field.
