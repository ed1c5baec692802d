(** Specification vocabulary for the hypercubes of the standalone scheme. *)
From Verif Require Import Prelude PathSpec GeoSpec HyperModel.

(** the element reached from the root by taking children number p_1, p_2, ... *)
Definition h_walk (c : hclass) (p : list Z) : hcube := fold_left (h_child c) p (h_root c).
(** p is a refinement path of the tree *)
Definition h_path (c : hclass) (p : list Z) : Prop := valid_path (hchildren c) p /\ zlen p <= hmax c.
(** a full family: all children of one element, in order *)
Definition h_children_of (c : hclass) (e : hcube) : list hcube := map (h_child c e) (zseq 0 (Z.to_nat (hchildren c))).

(** ** geometry, in terms of the vertex coordinates the interface reports; missing coordinates are 0 *)
Definition to_ipt (l : list Z) : ipt := (znth 0 l 0, znth 0 l 1, znth 0 l 2).
Definition h_vertex (c : hclass) (e : hcube) (v : Z) : ipt := to_ipt (h_coords c e v).
Definition h_vertices (c : hclass) (e : hcube) : list ipt := map (h_vertex c e) (zseq 0 (Z.to_nat (hcorners c))).
(** the vertices of the face f, as the interface lists them: 2^(dim-1) many *)
Definition h_num_face_corners (c : hclass) : Z := match c with HVertex => 0 | HLine => 1 | HQuad | PQuad => 2 | HHex | PHex => 4 end.
Definition h_face_corners (c : hclass) (f : Z) : list Z := map (h_face_corner f) (zseq 0 (Z.to_nat (h_num_face_corners c))).
Definition h_face_vertices (c : hclass) (e : hcube) (f : Z) : list ipt := map (h_vertex c e) (h_face_corners c f).
(** the face g of the element d is a subface of the face f of e: every vertex of the former is the midpoint of two vertices
    (possibly the same) of the latter *)
Definition h_subface (c : hclass) (e : hcube) (f : Z) (d : hcube) (g : Z) : Prop :=
  forall m, In m (h_face_vertices c d g) -> exists a b, In a (h_face_vertices c e f) /\ In b (h_face_vertices c e f) /\ midpoint m a b.
(** coordinate k of a point; the plane of the face rf of the root: faces 2k and 2k+1 are those where the coordinate k is 0 or maximal *)
Definition icoord (k : Z) (v : ipt) : Z := if k =? 0 then ix v else if k =? 1 then iy v else iz v.
Definition h_on_root_plane (c : hclass) (rf : Z) (v : ipt) : Prop := icoord (rf / 2) v = (rf mod 2) * 2 ^ hbits c.
(** ** faces as elements of one dimension less *)
(** the point of the root face rf of a root of side length R that has the coordinates w on this face *)
Definition h_embed (rf R : Z) (w : ipt) : ipt :=
  let m := rf mod 2 * R in if rf / 2 =? 0 then (m, ix w, iy w) else if rf / 2 =? 1 then (ix w, m, iy w) else (ix w, iy w, m).
Definition h_scale (n : Z) (v : ipt) : ipt := (n * ix v, n * iy v, n * iz v).
(** The symmetry of a face that maps its corner 0 to its corner o: a rotation, or, if sign is true, a reflection. *)
Definition h_symmetry (c : hclass) (o : Z) (sign : bool) (v : ipt) : ipt :=
  let R := 2 ^ hbits c in
  match c with
  | HLine => if o =? 0 then v else (R - ix v, iy v, iz v)
  | HQuad | PQuad => let x := if sign then iy v else ix v in let y := if sign then ix v else iy v in
      if o =? 0 then (x, y, iz v) else if o =? 1 then (R - y, x, iz v) else if o =? 2 then (y, R - x, iz v) else (R - x, R - y, iz v)
  | _ => v
  end.
