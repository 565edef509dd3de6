(** Model of Domain.set_height_above_surface (gusto/core/domain.py l.169-198, called at l.160-161 for every extruded mesh), on top of the column data of Columns.v. *)
From Coq Require Import Reals.
From Verif Require Import Base Columns.
Open Scope R_scope.

(** numpy.min over one row with S n entries, l.191 *)
Fixpoint row_min (data : nat -> R) (n : nat) : R := match n with O => data O | S m => Rmin (row_min data m) (data (S m)) end.
(** l.191: surface_height_1d = np.min(columnwise_height, axis=1); L is not 0 (the rows of get_column_data are not empty) *)
Definition surface_height (data : array) (L h : nat) : R := row_min (data h) (pred L).
(** l.192: columnwise_height - surface_height_1d[:, None] *)
Definition above_surface (data : array) (L : nat) : array := fun h l => data h l - surface_height data L h.

(** What the constructor of the domain sees on a rank *)
Inductive height_outcome := Height (f : list R) | HeightFails (e : exn) | HeightHangs.
(** l.185-198; frames: the sorted data frames of all ranks for CG1_height = interpolate(dot(k, x)) (l.183-184).  height_above_surface = Function(CG1) is zero before (l.185). *)
Definition set_height_above_surface (frames : list (list row)) : list height_outcome :=
  map (fun '(d, o) => match o with
       | Columns L (H, data, index) => Height (set_field_from_column_data H L (repeat 0 (length d)) (above_surface data L) index)
       | Raises e => HeightFails e
       | Hangs => HeightHangs end) (combine frames (get_column_data frames)).
