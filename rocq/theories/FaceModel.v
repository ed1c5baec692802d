(** The functions of the element interface that deal with faces (src/t8_schemes/t8_scheme.hxx), for one class of elements; the concrete
    ones, of lines, triangles and tetrahedra, are at the end.  Also element_face_get_ancestor_face (t8_scheme_helpers.hxx). *)
From Verif Require Import Prelude SchemeModel SchemeInstances SimplexModel LineModel EclassModel.

Record faces (S : scheme) := Faces {
  f_num : elt S -> Z;                      (** element_get_num_faces *)
  f_max : elt S -> Z;                      (** element_get_max_num_faces *)
  f_child_ids : elt S -> Z -> list Z;      (** element_get_children_at_face: the child numbers; the children themselves are below *)
  f_child_face : elt S -> Z -> Z -> Z;     (** element_face_get_child_face (element, face, number of the face child) *)
  f_parent_face : elt S -> Z -> Z;         (** element_face_get_parent_face *)
  f_first : elt S -> Z -> Z -> elt S;      (** element_get_first_descendant_face (element, face, level) *)
  f_last : elt S -> Z -> Z -> elt S        (** element_get_last_descendant_face *)
}.
Arguments Faces {S}.
Arguments f_num {S}.
Arguments f_max {S}.
Arguments f_child_ids {S}.
Arguments f_child_face {S}.
Arguments f_parent_face {S}.
Arguments f_first {S}.
Arguments f_last {S}.

(** element_get_children_at_face; all concrete schemes construct the children with the numbers in child_indices *)
Definition f_children {S} (F : faces S) (e : elt S) (face : Z) : list (elt S) := map (s_child e) (f_child_ids F e face).

(** t8_scheme_helpers.hxx:80-111: the loop of element_face_get_ancestor_face, n levels up *)
Fixpoint ancestor_face_loop {S} (F : faces S) (n : nat) (e : elt S) (face : Z) : Z :=
  match n with
  | O => face
  | Datatypes.S n' => let f := f_parent_face F e face in if f =? -1 then -1 else ancestor_face_loop F n' (s_parent e) f
  end.
(** t8_scheme_helpers.hxx:80-111 element_face_get_ancestor_face *)
Definition ancestor_face {S} (F : faces S) (e : elt S) (ancestor_level face : Z) : outcome Z :=
  if s_level e <? ancestor_level then AssertFail else Ok (ancestor_face_loop F (Z.to_nat (s_level e - ancestor_level)) e face).

(** ** the concrete classes *)
(** t8_eclass.h: T8_ECLASS_TRIANGLE, T8_ECLASS_TET *)
Definition simplex_eclass (tet : bool) : Z := if tet then 5 else 3.
(** t8_default_tri.cxx:328-339, t8_default_tet.cxx:298-310; t8_dtri_face_corner is t8_face_vertex_to_tree_vertex of the class *)
Definition first_descendant_face (tet : bool) (e : simp) (face level : Z) : simp :=
  corner_descendant tet e (face_vertex_to_tree_vertex (simplex_eclass tet) face 0) level.
(** t8_default_tri.cxx:341-351, t8_default_tet.cxx:312-323 *)
Definition last_descendant_face (tet : bool) (e : simp) (face level : Z) : simp :=
  corner_descendant tet e (if tet then Z.max (face_vertex_to_tree_vertex 5 face 1) (face_vertex_to_tree_vertex 5 face 2)
                           else face_vertex_to_tree_vertex 3 face 1) level.
(** t8_default_tri.cxx, t8_default_tet.cxx (element_get_max_num_faces 104-108) *)
Definition simplex_faces (tet : bool) : faces (simplex_scheme tet) := @Faces (simplex_scheme tet)
  (fun _ => FACES tet) (fun _ => FACES tet) (child_ids_at_face tet) (face_child_face tet) (face_parent_face tet)
  (first_descendant_face tet) (last_descendant_face tet).
(** t8_default_line.cxx:114-141 (children at a face), 198-234 (descendants at a face), 335-340 *)
Definition l_first_descendant_face (e : dline) (face level : Z) : dline :=
  if face =? 0 then l_first_descendant e level else l_last_descendant e level.
Definition line_faces : faces line_scheme := @Faces line_scheme
  (fun _ => 2) (fun _ => 2) (fun _ => l_child_ids_at_face) (fun _ face _ => l_face_child_face face) l_face_parent_face
  l_first_descendant_face l_first_descendant_face.
(** t8_default_vertex.cxx:106-110: a vertex has no faces *)
Definition vertex_faces : faces vertex_scheme := @Faces vertex_scheme
  (fun _ => 0) (fun _ => 0) (fun _ _ => []) (fun _ _ _ => 0) (fun _ _ => -1) (fun e _ _ => e) (fun e _ _ => e).
