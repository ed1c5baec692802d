(** The elements at the faces of trees, of whatever class, and the boundary faces of prisms. *)
From Verif Require Import Prelude SimplexModel LineModel HyperModel CubeModel PrismModel EclassModel.

(** an element of the class of a face: a vertex (its level), a line, a triangle or a quadrilateral.  In the code it is a pointer to memory
    that was allocated for the class t8_eclass_face_types[eclass][tree_face] and is cast to the type of that class *)
Inductive bdy := BVertex (level : Z) | BLine (l : dline) | BTri (t : simp) | BQuad (q : hcube).

(** element_transform_face with the same element as input and output (t8_forest.cxx:1515): t8_default_vertex.cxx:203-212,
    t8_default_line.cxx:160-171, t8_default_tri.cxx:265-278, t8_default_quad.cxx:413-488 *)
Definition bdy_transform (b : bdy) (orientation : Z) (sign is_smaller : bool) : outcome bdy :=
  match b with
  | BVertex l => Ok (BVertex l)
  | BLine l => Ok (BLine (l_transform_face l orientation))
  | BTri t => Ok (BTri (transform_face t orientation sign is_smaller))
  | BQuad q => do r <- q_transform_face q None orientation sign is_smaller; Ok (BQuad r)
  end.

(** t8_dprism_bits.c:188-217 t8_dprism_boundary_face (t8_default_prism.cxx:277-286 element_get_boundary_face); the divisions are of numbers
    that are not negative *)
Definition p_boundary_face (p : prism) (face : Z) : outcome bdy :=
  let t := ptri p in let l := pline p in
  if 3 <=? face then Ok (BTri t)
  else if face =? 0 then Ok (BQuad (Cube (lv t) [sy t * P4_ROOT_LEN / ROOT_LEN false; lx l * P4_ROOT_LEN / LROOT]))
  else if face =? 1 then Ok (BQuad (Cube (lv t) [sx t * P4_ROOT_LEN / ROOT_LEN false; lx l * P4_ROOT_LEN / LROOT]))
  else if face =? 2 then Ok (BQuad (Cube (lv t) [sx t * P4_ROOT_LEN / ROOT_LEN false; lx l * P4_ROOT_LEN / LROOT]))
  else AssertFail.
(** t8_dprism_bits.c:390-441 t8_dprism_extrude_face and t8_default_prism.cxx:236-251 element_extrude_face, which returns root_face *)
Definition p_extrude_face (b : bdy) (root_face : Z) : outcome (prism * Z) :=
  match b with
  | BQuad q =>
      let s := cx q * ROOT_LEN false / P4_ROOT_LEN in
      let z := cy q * LROOT / P4_ROOT_LEN in
      if root_face =? 0 then Ok (Prism (Line (hl q) z) (Simp (hl q) 0 (ROOT_LEN false - LEN false (hl q)) s 0), root_face)
      else if root_face =? 1 then Ok (Prism (Line (hl q) z) (Simp (hl q) 0 s s 0), root_face)
      else if root_face =? 2 then Ok (Prism (Line (hl q) z) (Simp (hl q) 0 s 0 0), root_face)
      else AssertFail
  | BTri t =>
      if root_face =? 3 then Ok (Prism (Line (lv t) 0) (Simp (lv t) (ty t) (sx t) (sy t) 0), root_face)
      else if root_face =? 4 then Ok (Prism (Line (lv t) (LROOT - LLEN (lv t))) (Simp (lv t) (ty t) (sx t) (sy t) 0), root_face)
      else AssertFail
  | _ => AssertFail
  end.
