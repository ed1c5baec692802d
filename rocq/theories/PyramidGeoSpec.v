(** Specification vocabulary for the geometry of the elements of pyramid trees: vertices and faces, in the numbering of the interface. *)
From Verif Require Import Prelude GeoSpec SimplexModel PyramidModel.

Definition y_vertices (e : pyr) : list ipt := map (y_integer_coords e) (zseq 0 (Z.to_nat (y_num_corners e))).
(** the face 4 of a pyramid is a quadrilateral, all other faces are triangles *)
Definition y_num_face_corners (e : pyr) (f : Z) : Z := if is_pyra e && (f =? 4) then 4 else 3.
(** the numbers of the corners of the face f, and their coordinates, as the interface lists them *)
Definition y_face_corners (e : pyr) (f : Z) : list Z := map (y_get_face_corner e f) (zseq 0 (Z.to_nat (y_num_face_corners e f))).
Definition y_face_vertices (e : pyr) (f : Z) : list ipt := map (y_integer_coords e) (y_face_corners e f).
(** the face g of the element c is a subface of the face f of e: every vertex of the former is the midpoint of two vertices
    (possibly the same) of the latter *)
Definition y_subface (e : pyr) (f : Z) (c : pyr) (g : Z) : Prop :=
  forall m, In m (y_face_vertices c g) -> exists a b, In a (y_face_vertices e f) /\ In b (y_face_vertices e f) /\ midpoint m a b.
(** the point v lies in the plane of the face rf of the root *)
Definition y_on_root_plane (rf : Z) (v : ipt) : Prop :=
  if rf =? 0 then ix v = iz v else if rf =? 1 then ix v = YROOT else if rf =? 2 then iy v = iz v else if rf =? 3 then iy v = YROOT else iz v = 0.
(** the value of a linear form (with constant) at a point *)
Definition yform (n : ipt) (d : Z) (v : ipt) : Z := ix n * ix v + iy n * iy v + iz n * iz v + d.
