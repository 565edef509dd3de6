(** Model of get_flat_latlon_mesh (gusto/core/meshes.py l.609-670): the coordinates of the flat
    mesh, cell by cell (the coordinate space is discontinuous, so every cell has its own nodes).
    One process; coordinates are exact reals (the sign of zero is not modelled). *)
From Verif Require Import Base Coords Meshes.
From Coq Require Import Reals List.
Import ListNotations.
Open Scope R_scope.

(** l.632. *)
Definition vnorm (p : v3) : R := sqrt (vx p ^ 2 + vy p ^ 2 + vz p ^ 2).
(** l.632: np.min over the nodes of all cells *)
Definition min_radius (cells : list (list v3)) : R :=
  match map vnorm (concat cells) with [] => 0 | r :: rs => fold_left Rmin rs r end.
(** l.633-638 *)
Definition node_lon (p : v3) : R := atan2 (vy p) (vx p).
(** l.633-638. *)
Definition node_lat (p : v3) : R := asin (vz p / vnorm p).
(** l.633-638. *)
Definition node_height (radius : R) (p : v3) : R := vnorm p - radius.
(** l.640-669: the nodes of one cell after splat_coords (Meshes.splat) *)
Definition flat_cell (radius : R) (nodes : list v3) : list (R * R * R) :=
  map (fun q => (fst q, node_lat (snd q), node_height radius (snd q)))
      (combine (splat (map node_lon nodes)) nodes).
(** l.640-669. *)
Definition flat_latlon (cells : list (list v3)) : list (list (R * R * R)) :=
  map (flat_cell (min_radius cells)) cells.
