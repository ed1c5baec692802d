(** The neighbour of an element at a face, across the faces of the trees of a mesh whose trees have different classes
    (src/t8_forest/t8_forest.cxx:1417-1527). *)
From Verif Require Import Prelude SchemeModel SchemeInstances FaceModel SimplexModel LineModel HyperModel CubeModel PrismModel EclassModel BdyModel NeighborModel.
From Verif Require Import CubeScheme PrismScheme PrismFlaws PyramidModel PyramidScheme PyramidBdyModel.

(** The class of a tree and the functions of the element interface that are used to leave a tree *)
Record tree_type := TreeType {
  tt_eclass : Z;
  tt_scheme : scheme;
  tt_faces : faces tt_scheme;
  tt_inside : elt tt_scheme -> Z -> option (elt tt_scheme * Z);      (** element_get_face_neighbor_inside: None if it returns 0 *)
  tt_root_boundary : elt tt_scheme -> Z -> bool;                     (** element_is_root_boundary *)
  tt_tree_face : elt tt_scheme -> Z -> Z;                            (** element_get_tree_face *)
  tt_boundary : elt tt_scheme -> Z -> outcome bdy;                   (** element_get_boundary_face *)
  tt_extrude : bdy -> Z -> outcome (elt tt_scheme * Z)               (** element_extrude_face: the element and its face *)
}.

Arguments tt_inside t : clear implicits.
Arguments tt_root_boundary t : clear implicits.
Arguments tt_tree_face t : clear implicits.
Arguments tt_boundary t : clear implicits.
Arguments tt_extrude t : clear implicits.

(** t8_eclass.h:63-65 T8_ECLASS_INVALID *)
Definition ECLASS_INVALID : Z := ECLASS_COUNT + 1.

Section neighbor.
Variable T : Z -> tree_type.
Variable conn : connection.
Notation cls := (fun t => tt_scheme (T t)).
Notation leaf := {t : Z & elt (cls t)}.
Notation el t e := (existT (fun s => elt (cls s)) t e).
(** t8_forest.cxx:1417-1440 t8_forest_element_neighbor_eclass, with t8_cmesh.cxx:1133-1160 t8_cmesh_get_tree_face_neighbor_eclass *)
Definition element_neighbor_eclass (x : leaf) (face : Z) : Z :=
  let (t, e) := x in
  if negb (tt_root_boundary (T t) e face) then tt_eclass (T t)
  else match conn t (tt_tree_face (T t) e face) with None => ECLASS_INVALID | Some (t', _, _) => tt_eclass (T t') end.
(** t8_forest.cxx:1443-1527 t8_forest_element_face_neighbor; Ok None at the boundary of the domain.  The element that is constructed has the
    class neigh_eclass; if that is not the class of the neighbouring tree it is not an element of that tree, which is an error here *)
Definition hybrid_face_neighbor (x : leaf) (neigh_eclass face : Z) : outcome (option (leaf * Z)) :=
  let (t, e) := x in
  match (if neigh_eclass =? tt_eclass (T t) then tt_inside (T t) e face else None) with
  | Some (n, g) => Ok (Some (el t n, g))
  | None =>
    let tree_face := tt_tree_face (T t) e face in
    match conn t tree_face with
    | None => Ok None
    | Some (t', neigh_face, orientation) =>
        do b <- tt_boundary (T t) e face;
        do cmp <- eclass_compare (tt_eclass (T t)) neigh_eclass;
        let is_smaller := if cmp =? -1 then true else if cmp =? 1 then false else tree_face <=? neigh_face in
        let sign := eclass_face_orientation (tt_eclass (T t)) tree_face =? eclass_face_orientation neigh_eclass neigh_face in
        do b' <- bdy_transform b orientation sign is_smaller;
        if negb (neigh_eclass =? tt_eclass (T t')) then AssertFail
        else do r <- tt_extrude (T t') b' neigh_face; let (n, g) := r in Ok (Some (el t' n, g))
    end
  end.
(** as its callers use it: t8_forest_balance.cxx:88, t8_forest_ghost.cxx:866, t8_forest.cxx:1731, 2752, 2785 *)
Definition hybrid_neighbor_at (x : leaf) (face : Z) : outcome (option (leaf * Z)) := hybrid_face_neighbor x (element_neighbor_eclass x face) face.
Definition hybrid_neighbor (x : leaf) (face : Z) : option (leaf * Z) := match hybrid_neighbor_at x face with Ok r => r | _ => None end.
End neighbor.
Arguments element_neighbor_eclass T conn x face : clear implicits.
Arguments hybrid_face_neighbor T conn x neigh_eclass face : clear implicits.
Arguments hybrid_neighbor_at T conn x face : clear implicits.
Arguments hybrid_neighbor T conn x face : clear implicits.

(** ** the concrete classes *)
(** one of the classes whose faces have all the same class *)
Definition single_type {S : scheme} (F : faces S) (X : crossing S) (rb : elt S -> Z -> bool) (inj : x_bd X -> bdy) (proj : bdy -> option (x_bd X)) : tree_type := {|
  tt_eclass := x_eclass X; tt_scheme := S; tt_faces := F;
  tt_inside := fun e f => let n := x_neighbor X e f in if x_inside X (fst n) then Some n else None;
  tt_root_boundary := rb; tt_tree_face := x_tree_face X;
  tt_boundary := fun e f => do b <- x_boundary X e f; Ok (inj b);
  tt_extrude := fun b f => match proj b with Some b => Ok (x_extrude X b f) | None => AssertFail end |}.
Arguments single_type {S} F X rb inj proj.
Definition line_type : tree_type := single_type line_faces line_crossing l_is_root_boundary BVertex (fun b => match b with BVertex l => Some l | _ => None end).
Definition quad_type : tree_type := single_type (cube_faces false) quad_crossing (c_is_root_boundary false) BLine (fun b => match b with BLine l => Some l | _ => None end).
Definition tri_type : tree_type := single_type (simplex_faces false) tri_crossing (is_root_boundary false) BLine (fun b => match b with BLine l => Some l | _ => None end).
Definition hex_type : tree_type := single_type (cube_faces true) hex_crossing (c_is_root_boundary true) BQuad (fun b => match b with BQuad q => Some q | _ => None end).
Definition tet_type : tree_type := single_type (simplex_faces true) tet_crossing (is_root_boundary true) BTri (fun b => match b with BTri t => Some t | _ => None end).
(** t8_default_prism.cxx *)
Definition prism_type : tree_type := {|
  tt_eclass := 6; tt_scheme := prism_scheme; tt_faces := prism_faces; tt_inside := p_neighbor_inside; tt_root_boundary := p_is_root_boundary;
  tt_tree_face := p_tree_face; tt_boundary := p_boundary_face; tt_extrude := p_extrude_face |}.
(** t8_default_pyramid.cxx *)
Definition pyramid_type : tree_type := {|
  tt_eclass := 7; tt_scheme := pyramid_scheme; tt_faces := pyramid_faces; tt_inside := y_neighbor_inside; tt_root_boundary := y_is_root_boundary;
  tt_tree_face := y_tree_face; tt_boundary := y_boundary_face; tt_extrude := y_extrude_face |}.
(** t8_default.cxx:30-54 t8_scheme_new_default: the scheme of each class.  Without vertices (they have no faces); numbers that are not a
    class are not used *)
Definition default_type (eclass : Z) : tree_type :=
  if eclass =? 1 then line_type else if eclass =? 2 then quad_type else if eclass =? 3 then tri_type else if eclass =? 4 then hex_type
  else if eclass =? 5 then tet_type else if eclass =? 6 then prism_type else pyramid_type.
