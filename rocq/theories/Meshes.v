(** Model of gusto/core/meshes.py: GeneralIcosahedralSphereMesh (l.17-436), the cubed sphere
    (_cubedsphere_cells_and_coords, l.439-562; GeneralCubedSphereMesh, l.565-606) and the
    longitude kernel of get_flat_latlon_mesh (l.609-670).
    Integers are Z; coordinates are exact reals (the code's arrays are doubles; numpy's int32
    overflow is not modelled).  The functions below stop at the arguments of
    plex_from_cell_list (cells and coordinates): building the plex, its distribution and
    reordering belong to Firedrake and PETSc. *)
From Verif Require Import Base.
From Coq Require Import ZArith Reals Lia.
Open Scope Z_scope.

(** range(n) (empty when n <= 0) *)
(** Auxiliary, nothing in the code by itself. *)
Definition zrange (n : Z) : list Z := map Z.of_nat (seq 0 (Z.to_nat n)).
(** Python indexing of the sequence range(lo, hi): negative indices count from the end,
    indices outside raise IndexError (None) *)
(** Auxiliary, nothing in the code by itself. *)
Definition range_get (lo hi i : Z) : option Z :=
  let n := Z.max 0 (hi - lo) in
  let i' := if i <? 0 then i + n else i in
  if (0 <=? i') && (i' <? n) then Some (lo + i') else None.
(** Python indexing of a list or array *)
(** Auxiliary, nothing in the code by itself. *)
Definition pyget {A} (l : list A) (i : Z) : option A :=
  let n := Z.of_nat (length l) in
  let i' := if i <? 0 then i + n else i in
  if (0 <=? i') && (i' <? n) then nth_error l (Z.to_nat i') else None.

(** ** The icosahedron (tables l.73-200) *)

(** panel_edges, second assignment (l.120-149); the first table (l.88-117) is overwritten *)
Definition panel_edges : list (Z * Z) :=
  [(0,1);(0,5);(0,7);(0,10);(0,11);(1,5);(1,7);(1,8);(1,9);(2,3);
   (2,4);(2,6);(2,10);(2,11);(3,4);(3,6);(3,8);(3,9);(4,5);(4,9);
   (4,11);(5,9);(5,11);(6,7);(6,8);(6,10);(7,8);(7,10);(8,9);(10,11)].
(** panels (l.152-171) *)
Definition panels : list (Z * Z * Z) :=
  [(0,5,11);(0,1,5);(0,1,7);(0,7,10);(0,10,11);
   (1,5,9);(4,5,11);(2,10,11);(6,7,10);(1,7,8);
   (3,4,9);(2,3,4);(2,3,6);(3,6,8);(3,8,9);
   (4,5,9);(2,4,11);(2,6,10);(6,7,8);(1,8,9)].
(** panels_to_edges (l.173-192) *)
Definition panels_to_edges : list (Z * Z * Z) :=
  [(1,4,22);(0,1,5);(0,2,6);(2,3,27);(3,4,29);
   (5,8,21);(18,20,22);(12,13,29);(23,25,27);(6,7,26);
   (14,17,19);(9,10,14);(9,11,15);(15,16,24);(16,17,28);
   (18,19,21);(10,13,20);(11,12,25);(23,24,26);(7,8,28)].

(** Auxiliary, nothing in the code by itself. *)
Definition tri_list (t : Z * Z * Z) : list Z := let '(a, b, c) := t in [a; b; c].
(** panels[i], l.152-171. *)
Definition panel (i : Z) : Z * Z * Z := nth (Z.to_nat i) panels (0, 0, 0).
(** panels_to_edges[i], l.173-192. *)
Definition edges_of (i : Z) : Z * Z * Z := nth (Z.to_nat i) panels_to_edges (0, 0, 0).
(** panel_edges[e], l.120-149. *)
Definition edge_of (e : Z) : Z * Z := nth (Z.to_nat e) panel_edges (0, 0).

(** the table check (l.194-200): both ends of each of a panel's edges are corners of it *)
Definition tables_ok : bool :=
  forallb (fun '(fe, face) =>
    forallb (fun e => existsb (Z.eqb (fst (edge_of e))) (tri_list face)
                      && existsb (Z.eqb (snd (edge_of e))) (tri_list face)) (tri_list fe))
    (combine panels_to_edges panels).

Section Counts.
Variable N : Z.  (* num_cells_per_edge_of_panel, big_N *)
(** l.203-213; int(x / 2) of an even positive integer is exact integer division *)
Definition num_base_vertices : Z := 12.
(** l.204. *)
Definition num_edge_vertices : Z := 30 * (N - 1).
(** l.205. *)
Definition num_face_vertices : Z := 20 * (N - 1) * (N - 2) / 2.
(** l.206. *)
Definition total_num_vertices : Z := num_base_vertices + num_edge_vertices + num_face_vertices.
(** l.209-210. *)
Definition num_faces_per_panel : Z := N * (N + 1) / 2 + N * (N - 1) / 2.
(** l.213. *)
Definition total_num_faces : Z := 20 * num_faces_per_panel.
(** l.272-273 *)
Definition vertices_per_edge : Z := num_edge_vertices / 30.
(** l.273. *)
Definition vertices_per_face : Z := num_face_vertices / 20.

(** ** The faces of one panel (l.275-409) *)

(** indices_of_edge_vertices[s, x] (l.289-294): s is the edge, a row of length
    vertices_per_edge starting at num_base_vertices + edge * vertices_per_edge *)
Definition edge_index (e x : Z) : option Z :=
  range_get (num_base_vertices + e * vertices_per_edge)
            (num_base_vertices + (e + 1) * vertices_per_edge) x.
(** indices_of_face_vertices[x] (l.297-299) *)
Definition face_index (i x : Z) : option Z :=
  let off := num_base_vertices + num_edge_vertices in
  range_get (off + i * vertices_per_face) (off + (i + 1) * vertices_per_face) x.

(** Auxiliary, nothing in the code by itself. *)
Definition tri3 (x y z : option Z) : option (Z * Z * Z) :=
  match x, y, z with Some a, Some b, Some c => Some (a, b, c) | _, _, _ => None end.

(** the triangle oriented with the panel, row j, column k (l.331-373) *)
Definition up_face (i j k : Z) : option (Z * Z * Z) :=
  let '(b0, b1, b2) := panel i in
  let '(e0, e1, e2) := edges_of i in
  let v0 :=
    if j =? 0 then (if k =? 0 then Some b0 else edge_index e0 (k - 1))
    else if k =? 0 then edge_index e1 (j - 1)
    else face_index i (vertices_per_face - (N - j - 1) * (N - j) / 2 + k - 1) in
  let v1 :=
    if j =? 0 then (if k =? N - j - 1 then Some b1 else edge_index e0 k)
    else if k =? N - j - 1 then edge_index e2 (j - 1)
    else face_index i (vertices_per_face - (N - j - 1) * (N - j) / 2 + k) in
  let v2 :=
    if j =? N - 1 then Some b2
    else if k =? 0 then edge_index e1 j
    else if k =? N - j - 1 then edge_index e2 j
    else face_index i (vertices_per_face - (N - j - 2) * (N - j - 1) / 2 + k - 1) in
  tri3 v0 v1 v2.
(** the triangle oriented against the panel (l.375-407) *)
Definition down_face (i j k : Z) : option (Z * Z * Z) :=
  let '(e0, e1, e2) := edges_of i in
  let v0 :=
    if j =? 0 then edge_index e0 k
    else face_index i (vertices_per_face - (N - j - 1) * (N - j) / 2 + k) in
  let v1 :=
    if k =? N - j - 2 then edge_index e2 j
    else face_index i (vertices_per_face - (N - j - 2) * (N - j - 1) / 2 + k) in
  let v2 :=
    if k =? 0 then edge_index e1 j
    else face_index i (vertices_per_face - (N - j - 2) * (N - j - 1) / 2 + k - 1) in
  tri3 v0 v1 v2.

(** the rows of this_panel_faces in the order they are written (l.323-407); the array
    has num_faces_per_panel rows *)
Definition panel_faces (i : Z) : list (option (Z * Z * Z)) :=
  flat_map (fun j =>
    map (up_face i j) (zrange (N - j)) ++
    (if j <? N - 1 then map (down_face i j) (zrange (N - j - 1)) else []))
  (zrange N).

(** Auxiliary, nothing in the code by itself. *)
Fixpoint sequence {A} (l : list (option A)) : option (list A) :=
  match l with
  | [] => Some []
  | x :: r => match x, sequence r with Some a, Some s => Some (a :: s) | _, _ => None end
  end.

(** all_faces (l.271-412): the faces of the 20 panels one after the other; without
    refinement the panels themselves *)
Definition all_faces : option (list (Z * Z * Z)) :=
  if 1 <? N then sequence (flat_map panel_faces (zrange 20)) else Some panels.

(** np.count_nonzero(all_faces == v) (l.416) *)
Definition occurrences (fs : list (Z * Z * Z)) (v : Z) : Z :=
  Z.of_nat (length (filter (Z.eqb v) (flat_map tri_list fs))).

(** the checks and the cells handed to plex_from_cell_list (l.40-46, 194-200, 414-421):
    a non-integer number of cells is not representable here *)
Definition icosahedral_cells (degree : Z) : res (list (Z * Z * Z)) :=
  if N <? 1 then Err RuntimeError
  else if degree <? 1 then Err ValueError
  else if negb tables_ok then Err ValueError
  else match all_faces with
       | None => Err IndexError
       | Some fs =>
         if forallb (fun v => let n := occurrences fs v in (n =? 5) || (n =? 6)) (zrange total_num_vertices)
         then Ok fs else Err ValueError
       end.
End Counts.

(** ** The coordinates of the icosahedral mesh *)
Open Scope R_scope.

(** A row of the coordinate arrays, l.73-85, 220, 239, 529. *)
Record pt3 := P3 { px : R; py : R; pz : R }.
(** Auxiliary, nothing in the code by itself. *)
Definition padd (p q : pt3) : pt3 := P3 (px p + px q) (py p + py q) (pz p + pz q).
(** Auxiliary, nothing in the code by itself. *)
Definition pscal (a : R) (p : pt3) : pt3 := P3 (a * px p) (a * py p) (a * pz p).
(** Auxiliary, nothing in the code by itself. *)
Definition psub (p q : pt3) : pt3 := padd p (pscal (-1) q).
(** Auxiliary, nothing in the code by itself. *)
Definition pdot (p q : pt3) : R := px p * px q + py p * py q + pz p * pz q.
(** np.linalg.norm(coords, axis=1) *)
(** l.423-425. *)
Definition pnorm (p : pt3) : R := sqrt (pdot p p).

(** The golden ratio of l.73. *)
Definition phi : R := (1 + sqrt 5) / 2.
(** base_vertices (l.73-85) *)
Definition base_vertices : list pt3 :=
  [P3 (-1) phi 0; P3 1 phi 0; P3 (-1) (-phi) 0; P3 1 (-phi) 0;
   P3 0 (-1) phi; P3 0 1 phi; P3 0 (-1) (-phi); P3 0 1 (-phi);
   P3 phi 0 (-1); P3 phi 0 1; P3 (-phi) 0 (-1); P3 (-phi) 0 1].
(** base_vertices[v], l.73-85. *)
Definition base_vertex (v : Z) : pt3 := nth (Z.to_nat v) base_vertices (P3 0 0 0).

(** np.linspace(0, 1, num=n)[k] *)
(** Used at l.222, 254. *)
Definition linspace01 (n k : Z) : R := IZR k / IZR (n - 1).
(** x0 + w*(x1 - x0) *)
(** l.235, 258. *)
Definition interp (x0 x1 : pt3) (w : R) : pt3 := padd x0 (pscal w (psub x1 x0)).

Section Coordinates.
Variable N : Z.
(** edge_vertices (l.220-236) *)
Definition edge_vertices : list pt3 :=
  flat_map (fun e => let x0 := base_vertex (fst e) in let x1 := base_vertex (snd e) in
    map (fun j => interp x0 x1 (linspace01 (N + 1) (j + 1))) (zrange (N - 1))) panel_edges.
(** face_vertices (l.239-259): row j runs between the j-th vertices of the panel's edges 1
    and 2; a lookup outside edge_vertices (IndexError) gives None *)
Definition face_row (es : Z * Z * Z) (j : Z) : list (option pt3) :=
  let '(_, e1, e2) := es in
  map (fun k =>
    match pyget edge_vertices (e1 * (N - 1) + j), pyget edge_vertices (e2 * (N - 1) + j) with
    | Some x0, Some x1 => Some (interp x0 x1 (linspace01 (N - j) (k + 1)))
    | _, _ => None
    end) (zrange (N - j - 2)).
(** l.239-259. *)
Definition face_vertices : list (option pt3) :=
  flat_map (fun es => flat_map (face_row es) (zrange (N - 2))) panels_to_edges.
(** all_vertices (l.262-266) *)
Definition all_vertices : list (option pt3) :=
  map Some base_vertices ++ map Some edge_vertices ++ face_vertices.
End Coordinates.

(** scaling to the sphere (l.423-425, and for a higher degree the "push out" of every node
    of the interpolated coordinates, l.428-433) *)
Definition push_out (radius : R) (p : pt3) : pt3 := pscal (radius / pnorm p) p.

(** ** The cubed sphere *)
Open Scope Z_scope.

Section Cubed.
Variable Nx : Z.  (* number of points along an edge of a panel = cells_per_cube_edge + 1 *)

(** panel_numbering (l.464-523).  The array is written panel by panel in the order 0, 5, 4,
    3, 1, 2; below, cube_p is row r, column c (0 <= r, c < Nx) of panel p after the last
    write to it, in terms of panels that are complete by then.  The running count is
    panel_numbering.max()+1 at each stage. *)
Definition cube0 (r c : Z) : Z := r * Nx + c.
(** l.468. *)
Definition count5 : Z := Nx * Nx.
(** l.471. *)
Definition cube5 (r c : Z) : Z := count5 + (r * Nx + c).
(** l.472. *)
Definition count4 : Z := count5 + Nx * Nx.
(** l.474-483. *)
Definition cube4 (r c : Z) : Z :=
  if r =? Nx - 1 then cube0 0 c          (* top edge: panel_numbering[0, 0, :] *)
  else if r =? 0 then cube5 (Nx - 1) c   (* bottom edge: panel_numbering[5, -1, :] *)
  else count4 + ((r - 1) * Nx + c).
(** l.484. *)
Definition count3 : Z := count4 + Nx * (Nx - 2).
(** l.486-494. *)
Definition cube3 (r c : Z) : Z :=
  if r =? Nx - 1 then cube5 0 c          (* top edge: panel_numbering[5, 0, :] *)
  else if r =? 0 then cube0 (Nx - 1) c   (* bottom edge: panel_numbering[0, -1, :] *)
  else count3 + ((r - 1) * Nx + c).
(** l.495. *)
Definition count1 : Z := count3 + Nx * (Nx - 2).
(** l.497-508. *)
Definition cube1 (r c : Z) : Z :=
  if c =? Nx - 1 then cube0 r 0                     (* right edge: [0, :, 0] *)
  else if c =? 0 then cube5 (Nx - 1 - r) 0          (* left edge: [5, ::-1, 0] *)
  else if r =? 0 then cube4 c 0                     (* bottom edge: [4, 1:-1, 0] *)
  else if r =? Nx - 1 then cube3 (Nx - 1 - c) 0     (* top edge: [3, -2:0:-1, 0] *)
  else count1 + ((r - 1) * (Nx - 2) + (c - 1)).
(** l.509. *)
Definition count2 : Z := count1 + (Nx - 2) * (Nx - 2).
(** l.511-522. *)
Definition cube2 (r c : Z) : Z :=
  if c =? Nx - 1 then cube5 (Nx - 1 - r) (Nx - 1)   (* right edge: [5, ::-1, -1] *)
  else if c =? 0 then cube0 r (Nx - 1)              (* left edge: [0, :, -1] *)
  else if r =? Nx - 1 then cube3 c (Nx - 1)         (* top edge: [3, 1:-1, -1] *)
  else if r =? 0 then cube4 (Nx - 1 - c) (Nx - 1)   (* bottom edge: [4, -2:0:-1, -1] *)
  else count2 + ((r - 1) * (Nx - 2) + (c - 1)).
(** l.464-523. *)
Definition panel_numbering (p r c : Z) : Z :=
  if p =? 0 then cube0 r c else if p =? 1 then cube1 r c else if p =? 2 then cube2 r c
  else if p =? 3 then cube3 r c else if p =? 4 then cube4 r c else cube5 r c.
(** Npoints (l.528): the largest number + 1 *)
Definition npoints : Z := count2 + (Nx - 2) * (Nx - 2).

(** cells (l.554-561): local faces of the (Nx-1)^2 squares, counter-clockwise from the lower
    left corner, for the six panels *)
Definition cube_cell (p r c : Z) : Z * Z * Z * Z :=
  (panel_numbering p r c, panel_numbering p (r + 1) c,
   panel_numbering p (r + 1) (c + 1), panel_numbering p r (c + 1)).
(** l.554-561. *)
Definition cube_cells : list (Z * Z * Z * Z) :=
  flat_map (fun p => flat_map (fun r => map (cube_cell p r) (zrange (Nx - 1))) (zrange (Nx - 1))) (zrange 6).
End Cubed.

Open Scope R_scope.
(** the gnomonic coordinates (l.448-451): x[m], m < Nx, and a = 3**(-0.5)*radius.
    linspace(-pi/4, pi/4, Nx)[m]; arctan(-1) and arctan(1) are exact here *)
Definition gn_a (radius : R) : R := / sqrt 3 * radius.
(** l.448-451. *)
Definition gn_x (radius : R) (Nx m : Z) : R :=
  gn_a radius * tan (atan (-1) + IZR m * ((atan 1 - atan (-1)) / IZR (Nx - 1))).
(** r (l.533) and coordinates_on_panel with its six uses (l.539-550): lX is indexed by the
    column, lY by the row (np.meshgrid) *)
Definition gn_xyz (radius : R) (Nx p r c : Z) : pt3 :=
  let a := gn_a radius in
  let lX := gn_x radius Nx c in let lY := gn_x radius Nx r in
  if (p =? 0)%Z then P3 lX lY (- a)
  else if (p =? 1)%Z then P3 (- a) lY (- lX)
  else if (p =? 2)%Z then P3 a lY lX
  else if (p =? 3)%Z then P3 lX a lY
  else if (p =? 4)%Z then P3 lX (- a) (- lY)
  else P3 lX (- lY) a.
(** l.533-550. *)
Definition gn_point (radius : R) (Nx p r c : Z) : pt3 :=
  let a := gn_a radius in
  let lX := gn_x radius Nx c in let lY := gn_x radius Nx r in
  pscal (radius / sqrt (a * a + lX * lX + lY * lY)) (gn_xyz radius Nx p r c).
(** coords (l.529-550): a dictionary from vertex number to point; every panel writes the
    points of all its vertices, in the order 0..5, later writes replacing earlier ones *)
Definition coord_writes (radius : R) (Nx : Z) : list (Z * pt3) :=
  flat_map (fun p => flat_map (fun r => map (fun c => (panel_numbering Nx p r c, gn_point radius Nx p r c))
    (zrange Nx)) (zrange Nx)) (zrange 6).
(** Auxiliary, nothing in the code by itself. *)
Definition last_write (l : list (Z * pt3)) (v : Z) : option pt3 :=
  fold_left (fun acc w => if Z.eqb (fst w) v then Some (snd w) else acc) l None.
(** l.529-550. *)
Definition cube_coords (radius : R) (Nx v : Z) : option pt3 := last_write (coord_writes radius Nx) v.

(** checks of GeneralCubedSphereMesh (l.587-591) *)
Definition cubed_cells (N degree : Z) : res (list (Z * Z * Z * Z)) :=
  if (N <? 1)%Z then Err RuntimeError
  else if (degree <? 1)%Z then Err ValueError
  else Ok (cube_cells (N + 1)).

(** ** get_flat_latlon_mesh: the longitude kernel splat_coords (l.645-663), for the
    longitudes of one cell's nodes *)
Definition splat_max_diff (lon : list R) : R :=
  fold_left (fun md p => let diff := fst p - snd p in
                         if Rlt_dec md (Rabs diff) then diff else md)
            (list_prod lon lon) 0.
(** l.645-663. *)
Definition splat (lon : list R) : list R :=
  if Rlt_dec PI (splat_max_diff lon)
  then map (fun x => if Rlt_dec x 0 then x + 2 * PI else x) lon
  else lon.
