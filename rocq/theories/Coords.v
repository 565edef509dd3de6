(** Model of gusto/core/coord_transforms.py, over the real numbers.  The UFL and numpy
    branches use the same formulas; only great_arc_angle differs (see below). *)
From Coq Require Import Reals List.
Import ListNotations.
Local Open Scope R_scope.

(** Auxiliary, nothing in the code by itself. *)
Record v3 := V { vx : R; vy : R; vz : R }.
(** atan2 of C, numpy and UFL (the sign of zero is not modelled) *)
(** atan2 of UFL and numpy, l.105-142. *)
Definition atan2 (y x : R) : R :=
  if Rlt_dec 0 x then atan (y / x)
  else if Rlt_dec x 0 then (if Rle_dec 0 y then atan (y / x) + PI else atan (y / x) - PI)
  else if Rlt_dec 0 y then PI / 2 else if Rlt_dec y 0 then - (PI / 2) else 0.

(** Auxiliary, nothing in the code by itself. *)
Inductive units := Rad | Deg.
(** l.87-95: unit_factor of xyz_from_lonlatr; l.129-132: of lonlatr_from_xyz *)
Definition to_rad (u : units) (a : R) : R := match u with Rad => a * 1 | Deg => a * (PI / 180) end.
(** The conversion back to the units of the arguments, l.87-95, 133-141. *)
Definition of_rad (u : units) (a : R) : R := match u with Rad => a * 1 | Deg => a * (180 / PI) end.
(** l.63-102 *)
Definition xyz_from_lonlatr (lon lat r : R) (u : units) : v3 :=
  let lon := to_rad u lon in let lat := to_rad u lat in V (r * cos lon * cos lat) (r * sin lon * cos lat) (r * sin lat).
(** l.105-142: (lon, lat, r) *)
Definition lonlatr_from_xyz (p : v3) (u : units) : R * R * R :=
  let lon := atan2 (vy p) (vx p) in
  let r := sqrt (vx p ^ 2 + vy p ^ 2 + vz p ^ 2) in
  let l := sqrt (vx p ^ 2 + vy p ^ 2) in
  let lat := atan2 (vz p) l in
  (of_rad u lon, of_rad u lat, r).

(** the position argument with its units: l.188-196, 258-266 *)
Inductive position := XYZ (p : v3) | LonLatR (u : units) (lon lat r : R).
(** l.188-196, 258-266. *)
Definition lonlat_of (p : position) : R * R :=
  match p with
  | XYZ p => let '(lon, lat, _) := lonlatr_from_xyz p Rad in (lon, lat)
  | LonLatR Rad lon lat _ => (lon, lat)
  | LonLatR Deg lon lat _ => (lon * PI / 180, lat * PI / 180)
  end.
(** l.145-217 *)
Definition xyz_vector_from_lonlatr (f_lon f_lat f_r : R) (pos : position) : v3 :=
  let '(lon, lat) := lonlat_of pos in
  V (cos lon * cos lat * f_r - sin lon * f_lon - cos lon * sin lat * f_lat)
    (sin lon * cos lat * f_r + cos lon * f_lon - sin lon * sin lat * f_lat)
    (sin lat * f_r + cos lat * f_lat).
(** l.220-284: (zonal, meridional, radial) *)
Definition lonlatr_components_from_xyz (f : v3) (pos : position) : R * R * R :=
  let '(lon, lat) := lonlat_of pos in
  (- sin lon * vx f + cos lon * vy f,
   - cos lon * sin lat * vx f - sin lon * sin lat * vy f + cos lat * vz f,
   cos lon * cos lat * vx f + sin lon * cos lat * vy f + sin lat * vz f).

(** Auxiliary, nothing in the code by itself. *)
Definition dot3 (a b : v3) : R := vx a * vx b + vy a * vy b + vz a * vz b.
(** Auxiliary, nothing in the code by itself. *)
Definition cross3 (a b : v3) : v3 := V (vy a * vz b - vz a * vy b) (vz a * vx b - vx a * vz b) (vx a * vy b - vy a * vx b).
(** Auxiliary, nothing in the code by itself. *)
Definition add3 (a b : v3) : v3 := V (vx a + vx b) (vy a + vy b) (vz a + vz b).
(** Auxiliary, nothing in the code by itself. *)
Definition scale3 (c : R) (a : v3) : v3 := V (c * vx a) (c * vy a) (c * vz a).
(** l.287-336 *)
Definition rodrigues_rotation (v axis : v3) (angle : R) : v3 :=
  add3 (add3 (scale3 (cos angle) v) (scale3 (sin angle) (cross3 axis v))) (scale3 (dot3 axis v * (1 - cos angle)) axis).
(** l.339-374: (axis, angle) *)
Definition pole_rotation (new_lon new_lat : R) : v3 * R :=
  (xyz_vector_from_lonlatr 0 0 1 (LonLatR Rad (new_lon + PI / 2) 0 1), PI / 2 - new_lat).
(** l.377-416: the rotated unit vectors e_lon, e_lat, e_r *)
Definition normalise (a : v3) : v3 := scale3 (/ sqrt (dot3 a a)) a.
(** rotated_lonlatr_vectors, l.377-416. *)
Definition rotated_lonlatr_vectors (xyz : v3) (new_lon new_lat : R) : v3 * v3 * v3 :=
  let '(axis, angle) := pole_rotation new_lon new_lat in
  let new_xyz := rodrigues_rotation xyz axis angle in
  let e_lon := xyz_vector_from_lonlatr 1 0 0 (XYZ new_xyz) in
  let e_lat := xyz_vector_from_lonlatr 0 1 0 (XYZ new_xyz) in
  (normalise (rodrigues_rotation e_lon axis (- angle)), normalise (rodrigues_rotation e_lat axis (- angle)),
   normalise (xyz_vector_from_lonlatr 0 0 1 (XYZ xyz))).
(** l.419-457 *)
Definition rotated_lonlatr_coords (xyz : v3) (new_lon new_lat : R) : R * R * R :=
  let '(axis, angle) := pole_rotation new_lon new_lat in lonlatr_from_xyz (rodrigues_rotation xyz axis angle) Rad.

(** l.460-491 *)
Definition periodic_distance (x1 x2 max_x min_x : R) : R :=
  let Lx := max_x - min_x in let longest := Lx / 2 in let trial := x1 - x2 in
  if Rlt_dec longest trial then trial - Lx else if Rlt_dec trial (- longest) then trial + Lx else trial.

(** great_arc_angle, l.494-537.  The four arguments are values (UFL expressions, floats)... *)
Definition arc (lon1 lat1 lon2 lat2 : R) : R := acos (cos (lon1 - lon2) * cos lat1 * cos lat2 + sin lat1 * sin lat2).
(** great_arc_angle, l.494-533. *)
Definition great_arc_angle (lon1 lat1 lon2 lat2 : R) (u : units) : R :=
  of_rad u (arc (to_rad u lon1) (to_rad u lat1) (to_rad u lon2) (to_rad u lat2)).
(** ... or numpy arrays, which "*=" (l.526-530) changes in place.  A heap maps array names to
    values (one entry of each array); arguments are names. *)
Definition heap := nat -> R.
(** Auxiliary, nothing in the code by itself. *)
Definition scale_at (h : heap) (a : nat) (c : R) : heap := fun b => if Nat.eqb b a then h b * c else h b.
(** great_arc_angle with numpy arrays, l.494-533. *)
Definition great_arc_angle_np (h : heap) (lon1 lat1 lon2 lat2 : nat) (u : units) : heap * R :=
  let h := match u with
           | Rad => h
           | Deg => scale_at (scale_at (scale_at (scale_at h lon1 (PI / 180)) lat1 (PI / 180)) lon2 (PI / 180)) lat2 (PI / 180)
           end in
  (h, of_rad u (arc (h lon1) (h lat1) (h lon2) (h lat2))).
