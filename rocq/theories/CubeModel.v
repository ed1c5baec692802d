(** Model of the quadrilaterals and hexahedra of the default scheme.  Cited lines are those of
    src/t8_schemes/t8_default/t8_default_quad/t8_default_quad.cxx for the functions q_.. and of
    src/t8_schemes/t8_default/t8_default_hex/t8_default_hex.cxx for the functions o_.. .

    The elements are quadrants of p4est and octants of p8est.  That library is not part of /repo.  Of its functions, those below that cite no
    lines of /repo are taken to compute what the documentation of p4est says: [p4_..] for the simple ones, and the functions of
    HyperModel.v for the classes PQuad and PHex (the coordinates and maximum levels of p4est) for those that are only called through
    (parent, children, child id, family, linear id, descendants, successor, common ancestor, comparison).
    Simplifications: int8/int32/uint64 are Z; T8_ASSERTs are preconditions of the theorems; the payload of a quadrant (T8_QUAD_SET_TDIM ...)
    is not modelled; aliasing of input and output is modelled for element_transform_face only. *)
From Verif Require Import Prelude SimplexModel LineModel HyperModel.

(** ** p4est.h, p8est.h, p4est_connectivity.h, p8est_connectivity.h *)
(** P4EST_MAXLEVEL, P8EST_MAXLEVEL *)
Definition P4_MAXLEVEL : Z := 30.
(** P4EST_QUADRANT_LEN, P8EST_QUADRANT_LEN; P4EST_ROOT_LEN, P8EST_ROOT_LEN; P4EST_LAST_OFFSET, P8EST_LAST_OFFSET *)
Definition p4_len (level : Z) : Z := Z.shiftl 1 (P4_MAXLEVEL - level).
Definition P4_ROOT_LEN : Z := Z.shiftl 1 P4_MAXLEVEL.
Definition p4_last_offset (level : Z) : Z := P4_ROOT_LEN - p4_len level.
(** p4est_face_corners, p8est_face_corners *)
Definition p4_face_corners : list (list Z) := [[0; 2]; [1; 3]; [0; 1]; [2; 3]].
Definition p8_face_corners : list (list Z) := [[0; 2; 4; 6]; [1; 3; 5; 7]; [0; 1; 4; 5]; [2; 3; 6; 7]; [0; 1; 2; 3]; [4; 5; 6; 7]].
Definition face_corners (oct : bool) (face : Z) : list Z := znth [] (if oct then p8_face_corners else p4_face_corners) face.
(** p4est_corner_faces, p8est_corner_faces *)
Definition p4_corner_faces : list (list Z) := [[0; 2]; [1; 2]; [0; 3]; [1; 3]].
Definition p8_corner_faces : list (list Z) := [[0; 2; 4]; [1; 2; 4]; [0; 3; 4]; [1; 3; 4]; [0; 2; 5]; [1; 2; 5]; [0; 3; 5]; [1; 3; 5]].
(** p4est_face_dual, p8est_face_dual *)
Definition p4_face_dual : list Z := [1; 0; 3; 2; 5; 4].

(** the coordinates of a quadrant or an octant *)
Definition cx (e : hcube) : Z := znth 0 (hx e) 0.
Definition cy (e : hcube) : Z := znth 0 (hx e) 1.
Definition cz (e : hcube) : Z := znth 0 (hx e) 2.
(** the class of HyperModel.v with the same coordinates *)
Definition cclass (oct : bool) : hclass := if oct then PHex else PQuad.
(** P4EST_CHILDREN, P8EST_CHILDREN; P4EST_FACES, P8EST_FACES; P4EST_DIM, P8EST_DIM *)
Definition c_num_children (oct : bool) : Z := if oct then 8 else 4.
Definition c_num_faces (oct : bool) : Z := if oct then 6 else 4.
Definition c_dim (oct : bool) : Z := if oct then 3 else 2.
(** quad 44-48, hex 43-47 get_maxlevel: P4EST_QMAXLEVEL, P8EST_OLD_QMAXLEVEL *)
Definition c_maxlevel (oct : bool) : Z := if oct then 18 else 29.

(** p4est_quadrant_face_neighbor: the coordinate normal to the face is moved by the length of the element *)
Definition p4_face_neighbor (e : hcube) (face : Z) : hcube :=
  let h := p4_len (hl e) in
  Cube (hl e) (imap (fun k x => if face =? 2 * k then x - h else if face =? 2 * k + 1 then x + h else x) 0 (hx e)).
(** p4est_quadrant_is_inside_root *)
Definition p4_is_inside_root (e : hcube) : bool := forallb (fun x => (0 <=? x) && (x <? P4_ROOT_LEN)) (hx e).
(** p4est_quadrant_corner_descendant: the descendant in the corner c *)
Definition p4_corner_descendant (e : hcube) (c level : Z) : hcube :=
  let shift := p4_len (hl e) - p4_len level in
  Cube level (imap (fun k x => if Z.testbit c k then x + shift else x) 0 (hx e)).
(** p4est_quadrant_child_id: 0 for the root *)
Definition p4_child_id (oct : bool) (e : hcube) : Z := if hl e =? 0 then 0 else h_child_id (cclass oct) e.
(** p4est_quadrant_ancestor_id: 0 at level 0 *)
Definition p4_ancestor_id (oct : bool) (e : hcube) (level : Z) : Z := if level =? 0 then 0 else h_ancestor_id (cclass oct) e level.
(** p4est_quadrant_is_familypv: false for roots *)
Definition p4_is_family (oct : bool) (l : list hcube) : bool := match h_is_family (cclass oct) l with Ok b => b | _ => false end.

(** ** the element *)
(** 179-200 element_get_child *)
Definition q_child (q : hcube) (childid : Z) : hcube :=
  let shift := p4_len (hl q + 1) in
  Cube (hl q + 1) [if Z.land childid 1 =? 0 then cx q else Z.lor (cx q) shift;
                   if Z.land childid 2 =? 0 then cy q else Z.lor (cy q) shift].
(** 147-167 element_get_child *)
Definition o_child (q : hcube) (childid : Z) : hcube :=
  let shift := p4_len (hl q + 1) in
  Cube (hl q + 1) [if Z.land childid 1 =? 0 then cx q else Z.lor (cx q) shift;
                   if Z.land childid 2 =? 0 then cy q else Z.lor (cy q) shift;
                   if Z.land childid 4 =? 0 then cz q else Z.lor (cz q) shift].
Definition c_child (oct : bool) : hcube -> Z -> hcube := if oct then o_child else q_child.
(** quad 765-771, hex 652-658 set_to_root: p4est_quadrant_set_morton (quad, 0, 0) *)
Definition c_root (oct : bool) : hcube := h_root (cclass oct).
(** t8_default_common.hxx element_is_ancestor: equal linear ids at the level of the first element *)
Definition c_is_ancestor (oct : bool) (a b : hcube) : bool :=
  if hl b <? hl a then false else h_linear_id (cclass oct) a (hl a) =? h_linear_id (cclass oct) b (hl a).
(** t8_default_common.hxx count_leaves_from_level, element_count_leaves, count_leaves_from_root: 1ULL << n as a signed number *)
Definition c_count_leaves (oct : bool) (e : hcube) (level : Z) : Z :=
  if level <? hl e then 0 else i64 (u64 (Z.shiftl 1 (c_dim oct * (level - hl e)))).
Definition c_count_root (oct : bool) (level : Z) : Z := i64 (u64 (Z.shiftl 1 (c_dim oct * level))).
(** t8_default_common.hxx element_get_num_siblings: 2 to the power of the dimension, also for the root *)
Definition c_num_siblings (oct : bool) (e : hcube) : Z := 2 ^ c_dim oct.
(** quad 655-666, hex 542-552 element_get_anchor *)
Definition c_anchor (oct : bool) (e : hcube) : list Z := if oct then [cx e; cy e; cz e] else [cx e; cy e; 0].
(** quad 668-681, hex 554-568 element_get_vertex_integer_coords *)
Definition q_coords (e : hcube) (vertex : Z) : list Z :=
  let len := p4_len (hl e) in
  [cx e + (if Z.land vertex 1 =? 0 then 0 else 1) * len; cy e + (if Z.land vertex 2 =? 0 then 0 else 1) * len].
Definition o_coords (e : hcube) (vertex : Z) : list Z :=
  let len := p4_len (hl e) in
  [cx e + (if Z.land vertex 1 =? 0 then 0 else 1) * len; cy e + (if Z.land vertex 2 =? 0 then 0 else 1) * len; cz e + (if Z.land vertex 4 =? 0 then 0 else 1) * len].
Definition c_coords (oct : bool) : hcube -> Z -> list Z := if oct then o_coords else q_coords.

(** ** faces *)
(** quad 150-167, hex 125-134 element_get_face_corner *)
Definition c_face_corner (oct : bool) (face corner : Z) : Z := znth 0 (face_corners oct face) corner.
(** quad 169-177, hex 136-145 element_get_corner_face *)
Definition c_corner_face (oct : bool) (corner face : Z) : Z := znth 0 (znth [] (if oct then p8_corner_faces else p4_corner_faces) corner) face.
(** quad 142-148, hex 117-123 element_get_num_face_children *)
Definition c_num_face_children (oct : bool) : Z := if oct then 4 else 2.
(** 320-384 element_get_children_at_face: the child numbers; the children are constructed with element_get_child *)
Definition q_child_ids_at_face (face : Z) : list Z :=
  if face =? 0 then [0; 2] else if face =? 1 then [1; 3] else if face =? 2 then [0; 1] else if face =? 3 then [2; 3] else [].
(** 229-277 element_get_children_at_face *)
Definition o_child_ids_at_face (face : Z) : list Z := map (fun i => znth 0 (face_corners true face) i) (zseq 0 4).
Definition c_child_ids_at_face (oct : bool) : Z -> list Z := if oct then o_child_ids_at_face else q_child_ids_at_face.
(** quad 386-393, hex 279-286 element_face_get_child_face; quad 542-549, hex 308-315 element_get_tree_face *)
Definition c_face_child_face (face face_child : Z) : Z := face.
Definition c_tree_face (face : Z) : Z := face.
(** 395-411 element_face_get_parent_face *)
Definition q_face_parent_face (e : hcube) (face : Z) : Z :=
  if hl e =? 0 then face
  else let child_id := p4_child_id false e in
       if (child_id =? c_face_corner false face 0) || (child_id =? c_face_corner false face 1) then face else -1.
(** 288-306 element_face_get_parent_face *)
Definition o_face_parent_face (e : hcube) (face : Z) : Z :=
  if hl e =? 0 then face
  else let child_id := p4_child_id true e in
       if (child_id =? c_face_corner true face 0) || (child_id =? c_face_corner true face 1) ||
          (child_id =? c_face_corner true face 2) || (child_id =? c_face_corner true face 3) then face else -1.
Definition c_face_parent_face (oct : bool) : hcube -> Z -> Z := if oct then o_face_parent_face else q_face_parent_face.
(** quad 552-567, hex 380-395 element_get_first_descendant_face *)
Definition c_first_descendant_face (oct : bool) (e : hcube) (face level : Z) : hcube := p4_corner_descendant e (c_face_corner oct face 0) level.
(** quad 570-585, hex 398-413 element_get_last_descendant_face *)
Definition c_last_descendant_face (oct : bool) (e : hcube) (face level : Z) : hcube := p4_corner_descendant e (c_face_corner oct face (if oct then 3 else 1)) level.
(** 614-630 element_is_root_boundary *)
Definition q_is_root_boundary (e : hcube) (face : Z) : bool :=
  let coord := if Z.shiftr face 1 =? 0 then cx e else cy e in
  coord =? (if Z.land face 1 =? 0 then 0 else p4_last_offset (hl e)).
(** 451-468 element_is_root_boundary *)
Definition o_is_root_boundary (e : hcube) (face : Z) : bool :=
  let coord := if Z.shiftr face 2 =? 0 then (if Z.shiftr face 1 =? 0 then cx e else cy e) else cz e in
  coord =? (if Z.land face 1 =? 0 then 0 else p4_last_offset (hl e)).
Definition c_is_root_boundary (oct : bool) : hcube -> Z -> bool := if oct then o_is_root_boundary else q_is_root_boundary.
(** quad 632-653, hex 470-494 element_get_face_neighbor_inside: (neighbour, dual face), and whether the neighbour is inside of the root *)
Definition c_face_neighbour (e : hcube) (face : Z) : hcube * Z := (p4_face_neighbor e face, znth 0 p4_face_dual face).
Definition c_face_neighbor_inside (e : hcube) (face : Z) : option hcube * Z :=
  let (n, g) := c_face_neighbour e face in ((if p4_is_inside_root n then Some n else None), g).

(** 587-612 element_get_boundary_face: a line *)
Definition q_boundary_face (e : hcube) (face : Z) : dline :=
  Line (hl e) (Z.quot ((if Z.shiftr face 1 =? 0 then cy e else cx e) * LROOT) P4_ROOT_LEN).
(** 415-449 element_get_boundary_face: a quadrilateral.  The products are those of unsigned 64 bit numbers, converted to int32, which is
    exact inside of the root *)
Definition o_boundary_face (e : hcube) (face : Z) : hcube :=
  Cube (hl e) [(if Z.shiftr face 1 =? 0 then cy e else cx e) * Z.quot P4_ROOT_LEN P4_ROOT_LEN;
               (if Z.shiftr face 2 =? 0 then cz e else cy e) * Z.quot P4_ROOT_LEN P4_ROOT_LEN].
(** 491-540 element_extrude_face: (element, face) *)
Definition q_extrude_face (l : dline) (root_face : Z) : outcome (hcube * Z) :=
  let x := Z.quot (lx l * P4_ROOT_LEN) LROOT in
  let last := p4_last_offset (ll l) in
  if root_face =? 0 then Ok (Cube (ll l) [0; x], root_face)
  else if root_face =? 1 then Ok (Cube (ll l) [last; x], root_face)
  else if root_face =? 2 then Ok (Cube (ll l) [x; 0], root_face)
  else if root_face =? 3 then Ok (Cube (ll l) [x; last], root_face)
  else AssertFail.
(** 317-377 element_extrude_face; the other root faces are excluded by the assertion of line 326 *)
Definition o_extrude_face (b : hcube) (root_face : Z) : outcome (hcube * Z) :=
  let x := Z.quot (cx b * P4_ROOT_LEN) P4_ROOT_LEN in
  let y := Z.quot (cy b * P4_ROOT_LEN) P4_ROOT_LEN in
  let last := p4_last_offset (hl b) in
  if root_face =? 0 then Ok (Cube (hl b) [0; x; y], root_face)
  else if root_face =? 1 then Ok (Cube (hl b) [last; x; y], root_face)
  else if root_face =? 2 then Ok (Cube (hl b) [x; 0; y], root_face)
  else if root_face =? 3 then Ok (Cube (hl b) [x; last; y], root_face)
  else if root_face =? 4 then Ok (Cube (hl b) [x; y; 0], root_face)
  else if root_face =? 5 then Ok (Cube (hl b) [x; y; last], root_face)
  else AssertFail.
(** 413-488 element_transform_face.  elem2 is what is stored in the output before the call; None if elem1 and elem2 are the same element.
    With a sign the coordinates are switched into the output, and the level is then read from there. *)
Definition q_transform_face (elem1 : hcube) (elem2 : option hcube) (orientation : Z) (sign is_smaller : bool) : outcome hcube :=
  let p := match elem2 with Some p => p | None => elem1 end in
  let h := p4_len (hl elem1) in
  let q := if sign then Cube (hl p) [cy elem1; cx elem1] else elem1 in
  let x := cx q in
  let o := if negb is_smaller && ((orientation =? 1) || (orientation =? 2)) && negb sign then 3 - orientation else orientation in
  if o =? 0 then Ok (Cube (hl q) [cx q; cy q])
  else if o =? 1 then Ok (Cube (hl q) [P4_ROOT_LEN - cy q - h; x])
  else if o =? 2 then Ok (Cube (hl q) [cy q; P4_ROOT_LEN - x - h])
  else if o =? 3 then Ok (Cube (hl q) [P4_ROOT_LEN - cx q - h; P4_ROOT_LEN - cy q - h])
  else AssertFail.
