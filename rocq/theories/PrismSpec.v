(** Specification vocabulary for prisms. *)
From Verif Require Import Prelude PathSpec GeoSpec SimplexModel LineModel PrismModel.

(** the prism reached from the root by taking children number p_1, p_2, ... *)
Definition p_walk (p : list Z) : prism := fold_left p_child p p_root.
Definition p_path (p : list Z) : Prop := valid_path 8 p /\ zlen p <= PMAX.
Definition p_children_of (e : prism) : list prism := map (p_child e) (zseq 0 8).

(** ** geometry, in terms of the vertex coordinates the API reports *)
Definition p_corner_numbers : list Z := [0;1;2;3;4;5].
Definition p_vertices (e : prism) : list ipt := map (p_vertex e) p_corner_numbers.
(** the vertices 0, 1, 2 are those of the lower triangle and 3, 4, 5 those above them.  The faces 0, 1, 2 are the quadrilaterals without
    the vertices f and f + 3, face 3 is the lower triangle and face 4 the upper one *)
Definition p_face_corner_numbers (f : Z) : list Z :=
  filter (fun v => if f <? 3 then negb (v mod 3 =? f) else v / 3 =? f - 3) p_corner_numbers.
Definition p_face_vertices (e : prism) (f : Z) : list ipt := map (p_vertex e) (p_face_corner_numbers f).
(** the face g of the element c is a subface of the face f of e: every vertex of the former is the midpoint of two vertices
    (possibly the same one) of the latter *)
Definition p_subface (e : prism) (f : Z) (c : prism) (g : Z) : Prop :=
  forall m, In m (p_face_vertices c g) -> exists a b, In a (p_face_vertices e f) /\ In b (p_face_vertices e f) /\ midpoint m a b.
(** the point v lies in the plane of the face rf of the root *)
Definition p_on_root_plane (rf : Z) (v : ipt) : Prop :=
  if rf =? 0 then ix v = PROOT else if rf =? 1 then ix v = iy v else if rf =? 2 then iy v = 0 else if rf =? 3 then iz v = 0 else iz v = PROOT.
