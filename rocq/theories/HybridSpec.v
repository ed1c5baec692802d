(** Meshes of trees of different classes that are connected at their faces. *)
From Verif Require Import Prelude SchemeModel SchemeSpec FaceModel FaceSpec NeighborModel HybridModel EclassModel.

(** K trees, the tree t of the class T t.  If the face f of the tree t is connected to the face f' of the tree t', with orientation o, then
    both faces have the same class, there are as many orientations as this class has vertices, and the face f' of t' is connected to the
    face f of t, with the same orientation *)
Definition hybrid_connected (T : Z -> tree_type) (K : Z) (conn : connection) : Prop :=
  forall t f t' f' o, 0 <= t < K -> 0 <= f < eclass_num_faces (tt_eclass (T t)) -> conn t f = Some (t', f', o) ->
    0 <= t' < K /\ 0 <= f' < eclass_num_faces (tt_eclass (T t')) /\
    eclass_face_types (tt_eclass (T t)) f = eclass_face_types (tt_eclass (T t')) f' /\
    0 <= o < eclass_num_vertices (eclass_face_types (tt_eclass (T t)) f) /\
    conn t' f' = Some (t, f, o).

(** the face f of the element e of a tree of class T is a part of the face r of the tree *)
Definition at_tree_face (T : tree_type) (e : elt (tt_scheme T)) (f r : Z) : Prop :=
  is_face (tt_faces T) (s_root (tt_scheme T)) r /\ In (e, f) (face_descend (tt_faces T) (Z.to_nat (s_level e)) (s_root (tt_scheme T)) r).
(** the elements e of the tree t and e' of the tree t' are neighbours of each other at their faces f and f' *)
Definition hybrid_meet (T : Z -> tree_type) (conn : connection) (t : Z) (e : elt (tt_scheme (T t))) (f t' : Z) (e' : elt (tt_scheme (T t'))) (f' : Z) : Prop :=
  hybrid_neighbor_at T conn (existT _ t e) f = Ok (Some (existT _ t' e', f')) /\ hybrid_neighbor_at T conn (existT _ t' e') f' = Ok (Some (existT _ t e, f)).
Arguments at_tree_face T e f r : clear implicits.
Arguments hybrid_meet T conn t e f t' e' f' : clear implicits.
(** What the neighbours at the faces have to satisfy, up to level ml: *)
Definition hybrid_neighbors_ok (T : Z -> tree_type) (K ml : Z) (conn : connection) : Prop :=
  (forall t (e : elt (tt_scheme (T t))) f, 0 <= t < K -> valid e -> s_level e <= ml -> is_face (tt_faces (T t)) e f ->
    (** at the boundary of the domain there is no neighbour, *)
    (exists r, at_tree_face (T t) e f r /\ conn t r = None /\ hybrid_neighbor_at T conn (existT _ t e) f = Ok None) \/
    (** inside of the tree the neighbour is in the same tree, on the same level, and e is its neighbour, *)
    ((forall r, ~ at_tree_face (T t) e f r) /\ exists e' f', valid e' /\ s_level e' = s_level e /\ is_face (tt_faces (T t)) e' f' /\ hybrid_meet T conn t e f t e' f') \/
    (** and at a face r of the tree it is at the connected face r' of the connected tree, whatever the class of that tree is *)
    (exists r t' r' o (e' : elt (tt_scheme (T t'))) f', at_tree_face (T t) e f r /\ conn t r = Some (t', r', o) /\ 0 <= t' < K /\ valid e' /\ s_level e' = s_level e /\
      is_face (tt_faces (T t')) e' f' /\ at_tree_face (T t') e' f' r' /\ hybrid_meet T conn t e f t' e' f')) /\
  (** the children of an element at a face meet the children of the neighbour at its face *)
  (forall t (e : elt (tt_scheme (T t))) f t' (e' : elt (tt_scheme (T t'))) f' c g, 0 <= t < K -> valid e -> s_level e < ml -> is_face (tt_faces (T t)) e f ->
    hybrid_meet T conn t e f t' e' f' -> In (c, g) (face_children (tt_faces (T t)) e f) ->
    exists c' g', In (c', g') (face_children (tt_faces (T t')) e' f') /\ hybrid_meet T conn t c g t' c' g') /\
  (** and a face of a child that is not a part of a face of the parent is between two children of the parent *)
  (forall t (e : elt (tt_scheme (T t))) i g, 0 <= t < K -> valid e -> s_level e < ml -> 0 <= i < s_num_children e -> is_face (tt_faces (T t)) (s_child e i) g ->
    (forall f, is_face (tt_faces (T t)) e f -> ~ In (s_child e i, g) (face_children (tt_faces (T t)) e f)) ->
    exists j g', 0 <= j < s_num_children e /\ hybrid_meet T conn t (s_child e i) g t (s_child e j) g').
