(** Specification vocabulary for faces as lower-dimensional elements. *)
From Verif Require Import Prelude GeoSpec SimplexModel SimplexSpec LineModel LineSpec.

(** The embedding of the boundary trees into the faces of the root, in the grid of the boundary element:
    face rf of the root triangle is the segment {emb_tri rf c | 0 <= c <= LROOT} *)
Definition emb_tri (rf c : Z) : Z * Z * Z := if rf =? 0 then (LROOT, c, 0) else if rf =? 1 then (c, c, 0) else (c, 0, 0).
(** face rf of the root tetrahedron is the image of the root triangle *)
Definition emb_tet (rf : Z) (w : Z * Z * Z) : Z * Z * Z :=
  if rf =? 0 then (ROOT_LEN false, iy w, ix w) else if rf =? 1 then (ix w, iy w, ix w)
  else if rf =? 2 then (ix w, iy w, iy w) else (ix w, 0, iy w).
Definition mul3 (k : Z) (v : Z * Z * Z) : Z * Z * Z := (k * ix v, k * iy v, k * iz v).

(** Symmetries of the root triangle in barycentric coordinates: the point (x, y) has the barycentric coordinates
    (R - x, x - y, y) with respect to the vertices (0,0), (R,0), (R,R). *)
Definition bary (v : Z * Z * Z) : Z * Z * Z := (ROOT_LEN false - ix v, ix v - iy v, iy v).
(** reflection exchanging the vertices 1 and 2 *)
Definition swap12 (b : Z * Z * Z) : Z * Z * Z := (ix b, iz b, iy b).
(** rotation of the vertices *)
Definition rot (b : Z * Z * Z) : Z * Z * Z := (iz b, ix b, iy b).
(** the symmetry that belongs to an orientation and a sign: reflect first, then rotate *)
Definition face_symmetry (o : Z) (sign : bool) (b : Z * Z * Z) : Z * Z * Z :=
  let b1 := if sign then swap12 b else b in
  if o =? 0 then b1 else if o =? 1 then rot b1 else rot (rot b1).
