(** Specification vocabulary for the quadrilaterals and hexahedra of the default scheme. *)
From Verif Require Import Prelude PathSpec GeoSpec HyperModel HyperSpec CubeModel.

(** the element reached from the root by taking children number p_1, p_2, ... *)
Definition c_walk (oct : bool) (p : list Z) : hcube := fold_left (c_child oct) p (c_root oct).
(** p is a refinement path of the tree *)
Definition c_path (oct : bool) (p : list Z) : Prop := valid_path (c_num_children oct) p /\ zlen p <= c_maxlevel oct.
(** a full family: all children of one element, in order *)
Definition c_children_of (oct : bool) (e : hcube) : list hcube := map (c_child oct e) (zseq 0 (Z.to_nat (c_num_children oct))).
(** an element inside or outside of the root: its coordinates are multiples of its length *)
Definition c_aligned (oct : bool) (e : hcube) : Prop :=
  0 <= hl e <= c_maxlevel oct /\ length (hx e) = Z.to_nat (c_dim oct) /\ Forall (fun x => exists n, x = n * 2 ^ (30 - hl e)) (hx e).

(** ** geometry, in terms of the vertex coordinates the interface reports; the third coordinate of a quadrilateral is 0 *)
Definition c_vertex (oct : bool) (e : hcube) (v : Z) : ipt := to_ipt (c_coords oct e v).
Definition c_vertices (oct : bool) (e : hcube) : list ipt := map (c_vertex oct e) (zseq 0 (Z.to_nat (c_num_children oct))).
(** the vertices of the face f, as the interface lists them *)
Definition c_num_face_corners (oct : bool) : Z := if oct then 4 else 2.
Definition c_face_corners (oct : bool) (f : Z) : list Z := map (c_face_corner oct f) (zseq 0 (Z.to_nat (c_num_face_corners oct))).
Definition c_face_vertices (oct : bool) (e : hcube) (f : Z) : list ipt := map (c_vertex oct e) (c_face_corners oct f).
(** the face g of the element d is a subface of the face f of e: every vertex of the former is the midpoint of two vertices
    (possibly the same) of the latter *)
Definition c_subface (oct : bool) (e : hcube) (f : Z) (d : hcube) (g : Z) : Prop :=
  forall m, In m (c_face_vertices oct d g) -> exists a b, In a (c_face_vertices oct e f) /\ In b (c_face_vertices oct e f) /\ midpoint m a b.
(** the plane of the face rf of the root: faces 2k and 2k+1 are those where the coordinate k is 0 or maximal *)
Definition c_on_root_plane (rf : Z) (v : ipt) : Prop := icoord (rf / 2) v = (rf mod 2) * 2 ^ 30.
(** The symmetry of a quadrilateral that maps its corner 0 to its corner o: a rotation, or, if sign is true, a reflection. *)
Definition c_symmetry (o : Z) (sign : bool) (v : ipt) : ipt :=
  let R := 2 ^ 30 in
  let x := if sign then iy v else ix v in let y := if sign then ix v else iy v in
  if o =? 0 then (x, y, iz v) else if o =? 1 then (R - y, x, iz v) else if o =? 2 then (y, R - x, iz v) else (R - x, R - y, iz v).
