(** Specification vocabulary for triangles and tetrahedra. *)
From Verif Require Import Prelude PathSpec GeoSpec SimplexModel.

(** the element reached from the root by taking children number p_1, p_2, ... *)
Definition walk (tet : bool) (p : list Z) : simp := fold_left (child tet) p init_root.

(** p is a refinement path of the tree: at most MAXLEVEL refinements, all child numbers below the number of children *)
Definition tree_path (tet : bool) (p : list Z) : Prop := valid_path (CHILDREN tet) p /\ zlen p <= MAXLEVEL tet.

(** ** geometry, in terms of the vertex coordinates the API reports *)
(** vertex numbers 0 .. corners-1 *)
Definition corner_numbers (tet : bool) : list Z := if tet then [0;1;2;3] else [0;1;2].
Definition vertices (tet : bool) (e : simp) : list (Z * Z * Z) := map (compute_integer_coords tet e) (corner_numbers tet).
(** face number f of a simplex is the one opposite to vertex f *)
Definition face_corner_numbers (tet : bool) (f : Z) : list Z := filter (fun v => negb (v =? f)) (corner_numbers tet).
Definition face_vertices (tet : bool) (e : simp) (f : Z) : list (Z * Z * Z) :=
  map (compute_integer_coords tet e) (face_corner_numbers tet f).
(** the face g of the element c is a subface of the face f of e: every vertex of the former is the midpoint of two vertices
    (possibly the same one) of the latter *)
Definition subface (tet : bool) (e : simp) (f : Z) (c : simp) (g : Z) : Prop :=
  forall m, In m (face_vertices tet c g) ->
    exists a b, In a (face_vertices tet e f) /\ In b (face_vertices tet e f) /\ midpoint m a b.
(** vertex v lies in the plane of face rf of the root; [on_root_plane_root] (SimplexFaceChildProofs) checks this against the root *)
Definition on_root_plane (tet : bool) (rf : Z) (v : Z * Z * Z) : Prop :=
  if rf =? 0 then ix v = ROOT_LEN tet
  else if tet then (if rf =? 1 then ix v = iz v else if rf =? 2 then iy v = iz v else iy v = 0)
  else (if rf =? 1 then ix v = iy v else iy v = 0).

(** the id-th element of level L, L >= 0 *)
Definition nth_elem (tet : bool) (L id : Z) : simp := walk tet (digits (CHILDREN tet) (Z.to_nat L) id).
(** a full family: all children of one element, in order *)
Definition children_of (tet : bool) (e : simp) : list simp := map (child tet e) (zseq 0 (Z.to_nat (CHILDREN tet))).
