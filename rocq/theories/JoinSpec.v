(** What it means that trees given by their vertices are joined: vocabulary of C51, independent of how the code finds the connections. *)
From Coq Require Import SpecFloat.
From Verif Require Import Prelude EclassModel JoinModel.

Definition tree_of (m : list jtree) (x : face) : jtree := znth no_jtree m (fst x).
(** x is a face of a tree of the mesh *)
Definition is_face (m : list jtree) (x : face) : Prop :=
  0 <= fst x < zlen m /\ 0 <= snd x < eclass_num_faces (j_class (tree_of m x)).
(** the number of corners of a face and its i-th corner *)
Definition num_corners (m : list jtree) (x : face) : Z :=
  eclass_num_vertices (eclass_face_types (j_class (tree_of m x)) (snd x)).
Definition corner (m : list jtree) (x : face) (i : Z) : point :=
  znth no_point (j_points (tree_of m x)) (face_vertex_to_tree_vertex (j_class (tree_of m x)) (snd x) i).
Definition is_corner (m : list jtree) (x : face) (p : point) : Prop := exists i, 0 <= i < num_corners m x /\ corner m x i = p.
(** two faces have the same corners *)
Definition coincide (m : list jtree) (x y : face) : Prop := forall p, is_corner m x p <-> is_corner m y p.

(** t8_eclass.h:436-440: Triangle < Square in 2D and Tet < Hex < Prism < Pyramid in 3D *)
Definition class_rank (c : Z) : Z :=
  if c =? QUAD then 1 else if c =? HEX then 1 else if c =? PRISM then 2 else if c =? PYRAMID then 3 else 0.
Definition before (x y : face) : Prop := fst x < fst y \/ fst x = fst y /\ snd x < snd y.
(** x is the main face of the two (t8_cmesh.h:342-352); for equal classes and face numbers the one that comes first *)
Definition main_face (m : list jtree) (x y : face) : Prop :=
  let cx := class_rank (j_class (tree_of m x)) in
  let cy := class_rank (j_class (tree_of m y)) in
  cx < cy \/ cx = cy /\ (snd x < snd y \/ snd x = snd y /\ before x y).
(** corner 0 of the main face is corner o of the other one *)
Definition oriented (m : list jtree) (x y : face) (o : Z) : Prop :=
  main_face m x y /\ 0 <= o < num_corners m y /\ corner m x 0 = corner m y o \/
  main_face m y x /\ 0 <= o < num_corners m x /\ corner m y 0 = corner m x o.

(** a vertex of some tree *)
Definition is_vertex (m : list jtree) (p : point) : Prop := exists t, In t m /\ In p (j_points t).
(** Trees of one dimension, each with as many vertices as its class has, pairwise different *)
Definition mesh_ok (m : list jtree) (d : Z) : Prop :=
  forall t, In t m -> 0 <= j_class t < ECLASS_COUNT /\ eclass_to_dimension (j_class t) = d /\
    zlen (j_points t) = eclass_num_vertices (j_class t) /\ NoDup (j_points t).
(** no face has the corners of two other faces *)
Definition conforming (m : list jtree) : Prop :=
  forall x y z, is_face m x -> is_face m y -> is_face m z -> y <> x -> z <> x -> coincide m x y -> coincide m x z -> y = z.
(** The comparison with the tolerance takes two vertices for the same exactly if they are given by the same numbers, and all coordinates have a
    bin, that is the conversion to unsigned long is defined *)
Definition separated (m : list jtree) (b : spec_float * spec_float) : Prop :=
  forall p q, is_vertex m p -> is_vertex m q -> (same_point (tolerance_of b) p q = true <-> p = q).
Definition has_bins (m : list jtree) (b : spec_float * spec_float) : Prop :=
  forall p v, is_vertex m p -> In v (coords p) -> exists k, bin b v = Ok k.
