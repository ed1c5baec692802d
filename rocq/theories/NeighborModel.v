(** The neighbour of an element at a face, across the faces of the trees (src/t8_forest/t8_forest.cxx:1443-1527).  All trees have the
    same class; the connectivity of the trees is a function. *)
From Verif Require Import Prelude SchemeModel SchemeInstances SimplexModel LineModel EclassModel FaceModel.

(** The functions of the element interface that are used to leave a tree *)
Record crossing (S : scheme) := Crossing {
  x_neighbor : elt S -> Z -> elt S * Z;            (** element_get_face_neighbor_inside: the neighbour and its face ... *)
  x_inside : elt S -> bool;                        (** ... and its result *)
  x_tree_face : elt S -> Z -> Z;                   (** element_get_tree_face *)
  x_eclass : Z;
  x_bd : Type;                                     (** the elements of the class of the faces *)
  x_boundary : elt S -> Z -> outcome x_bd;         (** element_get_boundary_face *)
  x_transform : x_bd -> Z -> bool -> bool -> x_bd; (** element_transform_face (element, orientation, sign, is_smaller_face) *)
  x_extrude : x_bd -> Z -> elt S * Z               (** element_extrude_face: the element and its face *)
}.
Arguments Crossing {S}.
Arguments x_neighbor {S}.
Arguments x_inside {S}.
Arguments x_tree_face {S}.
Arguments x_eclass {S}.
Arguments x_bd {S}.
Arguments x_boundary {S}.
Arguments x_transform {S}.
Arguments x_extrude {S}.

(** t8_cmesh_get_face_neighbor (tree, face): the neighbour tree, its face and the orientation, None at the boundary of the domain *)
Definition connection := Z -> Z -> option (Z * Z * Z).

Section neighbor.
Variable S : scheme.
Variable X : crossing S.
Variable conn : connection.
Notation leaf := {t : Z & elt ((fun _ : Z => S) t)}.
Notation el t e := (existT (fun s => elt ((fun _ : Z => S) s)) t e).
(** t8_forest.cxx:1443-1527 t8_forest_element_face_neighbor; Ok None at the boundary of the domain.  The class of the neighbour tree is
    that of the tree, so that is_smaller compares the faces. *)
Definition element_face_neighbor (x : leaf) (face : Z) : outcome (option (leaf * Z)) :=
  let (t, e) := x in
  let (n, g) := x_neighbor X e face in
  if x_inside X n then Ok (Some (el t n, g))
  else
    let tree_face := x_tree_face X e face in
    match conn t tree_face with
    | None => Ok None
    | Some (t', neigh_face, orientation) =>
        do b <- x_boundary X e face;
        let is_smaller := tree_face <=? neigh_face in
        let sign := eclass_face_orientation (x_eclass X) tree_face =? eclass_face_orientation (x_eclass X) neigh_face in
        let (n', g') := x_extrude X (x_transform X b orientation sign is_smaller) neigh_face in
        Ok (Some (el t' n', g'))
    end.
(** the neighbour as the other modules use it *)
Definition neighbor (x : leaf) (face : Z) : option (leaf * Z) := match element_face_neighbor x face with Ok r => r | _ => None end.
End neighbor.

(** ** the concrete classes *)
(** t8_default_line.cxx:146-257; the faces are vertices, element_transform_face copies their level (t8_default_vertex.cxx:203-212) *)
Definition line_crossing : crossing line_scheme := @Crossing line_scheme
  l_face_neighbour l_is_inside_root (fun _ face => face) 1
  Z (fun e face => Ok (l_boundary_face e face)) (fun v _ _ _ => v) l_extrude_face.
(** t8_default_tri.cxx:240-420; the faces are lines (t8_default_line.cxx:160-171) *)
Definition tri_crossing : crossing (simplex_scheme false) := @Crossing (simplex_scheme false)
  (face_neighbour false) (is_inside_root false) (tree_face false) 3
  dline (fun e face => Ok (tri_boundary_face e face)) (fun l orientation _ _ => l_transform_face l orientation) tri_extrude_face.
(** t8_default_tet.cxx:230-400; the faces are triangles (t8_default_tri.cxx:265-278) *)
Definition tet_crossing : crossing (simplex_scheme true) := @Crossing (simplex_scheme true)
  (face_neighbour true) (is_inside_root true) (tree_face true) 5
  simp tet_boundary_face transform_face tet_extrude_face.
