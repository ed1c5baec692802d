(** The boundary faces of the elements of pyramid trees (src/t8_schemes/t8_default/t8_default_pyramid/t8_dpyramid_bits.c), and their
    face functions as a value of type [faces]. *)
From Verif Require Import Prelude SchemeModel FaceModel SimplexModel HyperModel CubeModel EclassModel BdyModel PyramidModel PyramidScheme.

(** t8_dpyramid.h:47 T8_DTRI_ROOT_BY_DPYRAMID_ROOT *)
Definition DTRI_ROOT_BY_DPYRAMID_ROOT : Z := Z.shiftl 1 (MAXLEVEL false - YMAX).
(** t8_dpyramid_connectivity.c:123-129 *)
Definition y_tritype_rootface_to_tettype : Z -> Z -> Z := tab2 [[2;1;1;2]; [0;0;3;3]].
Definition y_tritype_rootface_to_face : Z -> Z -> Z := tab2 [[2;0;2;0]; [1;0;1;0]].
(** 1130-1190 t8_dpyramid_boundary_face (t8_default_pyramid.cxx:277-285 element_get_boundary_face).  The triangle has no z coordinate; the
    divisions are of numbers that are not negative *)
Definition y_boundary_face (p : pyr) (face : Z) : outcome bdy :=
  if face =? 4 then Ok (BQuad (Cube (ylv p) [yx p * P4_ROOT_LEN / YROOT; yy p * P4_ROOT_LEN / YROOT]))
  else
    let tri x type := Ok (BTri (Simp (ylv p) type (x * DTRI_ROOT_BY_DPYRAMID_ROOT) (yz p * DTRI_ROOT_BY_DPYRAMID_ROOT) 0)) in
    if is_pyra p then
      if face =? 0 then tri (yy p) 0 else if face =? 1 then tri (yy p) 0 else if face =? 2 then tri (yx p) 0
      else if face =? 3 then tri (yx p) 0 else AssertFail
    else if ((face =? 1) && (yty p =? 0)) || ((face =? 2) && (yty p =? 2)) then tri (yy p) (if yty p =? 0 then 1 else 0)
    else if (face =? 0) && ((yty p =? 0) || (yty p =? 1)) then tri (yy p) (if yty p =? 0 then 1 else 0)
    else if ((face =? 1) && (yty p =? 3)) || ((face =? 2) && (yty p =? 1)) then tri (yx p) (if yty p =? 3 then 1 else 0)
    else tri (yx p) (if yty p =? 3 then 1 else 0).
(** 1193-1257 t8_dpyramid_extrude_face (t8_default_pyramid.cxx:287-297 element_extrude_face) *)
Definition y_extrude_face (b : bdy) (root_face : Z) : outcome (pyr * Z) :=
  if root_face =? 4 then
    match b with
    | BQuad q => Ok (Pyr (Simp (hl q) ROOT_TYPE (cx q * YROOT / P4_ROOT_LEN) (cy q * YROOT / P4_ROOT_LEN) 0) (-1), root_face)
    | _ => AssertFail
    end
  else
    match b with
    | BTri t =>
      let z := sy t * YROOT / ROOT_LEN false in
      let s := sx t * YROOT / ROOT_LEN false in
      let touch := YROOT - YLEN (lv t) in
      do xy <- (if root_face =? 0 then Ok (z, s) else if root_face =? 1 then Ok (touch, s) else if root_face =? 2 then Ok (s, z)
                else if root_face =? 3 then Ok (s, touch) else AssertFail);
      if (sy t =? Z.land (sx t) (sy t)) && (ty t =? 0) then Ok (Pyr (Simp (lv t) FIRST_TYPE (fst xy) (snd xy) z) (-1), root_face)
      else do p <- y_set_switch (Pyr (Simp (lv t) (y_tritype_rootface_to_tettype (ty t) root_face) (fst xy) (snd xy) z) 0);
           Ok (p, y_tritype_rootface_to_face (ty t) root_face)
    | _ => AssertFail
    end.

(** The face functions; 1105-1128 num_faces and max_num_faces.  For the level of the element itself, where 967-1065 leave the result unset
    for some faces of tetrahedra (C05_pyramid_corner_descendant_refuted), the descendant at a face is taken to be the element *)
Definition pyramid_faces : faces pyramid_scheme := @Faces pyramid_scheme
  y_num_faces y_num_faces y_child_ids_at_face y_face_child_face y_face_parent_face
  (fun e f L => if ylv e =? L then e else match y_first_descendant_face e f L with Ok (Some d) => d | _ => e end)
  (fun e f L => if ylv e =? L then e else match y_last_descendant_face e f L with Ok (Some d) => d | _ => e end).
(** 902-914 t8_dpyramid_face_neighbor_inside: None if it returns 0 *)
Definition y_neighbor_inside (p : pyr) (face : Z) : option (pyr * Z) :=
  match y_face_neighbor_inside p face with Ok (Some n, g) => Some (n, g) | _ => None end.
