(** What a user says about a coarse mesh with calls of the API, independent of how it is stored. *)
From Verif Require Import Prelude EclassModel CmeshModel.

(** face f1 of tree t1 is joined with face f2 of tree t2 *)
Definition joined (calls : list call) (t1 f1 t2 f2 o : Z) : Prop := In (SetJoin t1 t2 f1 f2 o) calls \/ In (SetJoin t2 t1 f2 f1 o) calls.
(** the tree numbers of the calls that set a class, the faces of the calls that join faces, the attributes that are set *)
Definition class_ids (calls : list call) : list Z := flat_map (fun c => match c with SetClass t _ => [t] | _ => [] end) calls.
Definition join_sides (calls : list call) : list (Z * Z) := flat_map (fun c => match c with SetJoin t1 t2 f1 f2 _ => [(t1, f1); (t2, f2)] | _ => [] end) calls.
Definition attr_keys (calls : list call) : list (Z * Z * Z) := flat_map (fun c => match c with SetAttribute t pkg key _ => [(t, pkg, key)] | _ => [] end) calls.
(** memory that the attributes need *)
Definition attr_bytes (calls : list call) : Z := fold_right (fun c s => match c with SetAttribute _ _ _ d => 24 + zlen d + s | _ => s end) 0 calls.

(** Calls that obey the documentation: tree numbers are not negative, no class is set twice, all classes have the same dimension, the joined faces are faces of
    trees with a class and no face is joined twice, no attribute is set twice, keys and packages are ints and the attributes fit into memory. *)
Record calls_ok (dim : Z) (calls : list call) : Prop := {
  ok_class : forall t c, In (SetClass t c) calls -> 0 <= t /\ 0 <= c < 8 /\ eclass_to_dimension c = dim;
  ok_class_once : NoDup (class_ids calls);
  ok_join : forall t1 t2 f1 f2 o, In (SetJoin t1 t2 f1 f2 o) calls -> 0 <= o < 4;
  ok_join_once : NoDup (join_sides calls);
  ok_attr : forall t pkg key d, In (SetAttribute t pkg key d) calls -> 0 <= t /\ - 2 ^ 31 <= pkg < 2 ^ 31 /\ - 2 ^ 31 <= key < 2 ^ 31;
  ok_attr_once : NoDup (attr_keys calls);
  ok_attr_bytes : attr_bytes calls < 2 ^ 63
}.
(** face f is a face of tree t *)
Definition has_face (calls : list call) (t f : Z) : Prop := exists c, In (SetClass t c) calls /\ 0 <= f < eclass_num_faces c.

(** A replicated mesh: the trees are 0, ..., n - 1 *)
Record mesh_calls (dim n : Z) (calls : list call) : Prop := {
  mesh_range : 0 <= n;
  mesh_ok_calls : calls_ok dim calls;
  mesh_trees : forall t, 0 <= t < n <-> In t (class_ids calls);
  mesh_joins : forall t1 t2 f1 f2 o, In (SetJoin t1 t2 f1 f2 o) calls -> has_face calls t1 f1 /\ has_face calls t2 f2;
  mesh_attrs : forall t pkg key d, In (SetAttribute t pkg key d) calls -> 0 <= t < n
}.
Definition has_attribute (calls : list call) (t : Z) : Prop := exists pkg key d, In (SetAttribute t pkg key d) calls.

(** A process of a partitioned mesh with the local trees first, ..., first + n - 1.  Its calls contain the classes of the local trees and of the trees that are
    joined with them (its ghosts); calls about other trees are allowed. *)
Definition local_tree (first n t : Z) : Prop := first <= t < first + n.
Definition ghost_tree (first n : Z) (calls : list call) (t : Z) : Prop :=
  ~ local_tree first n t /\ exists l fl f o, local_tree first n l /\ joined calls l fl t f o.
Definition known_tree (first n : Z) (calls : list call) (t : Z) : Prop := local_tree first n t \/ ghost_tree first n calls t.
Record part_calls (dim first n : Z) (calls : list call) : Prop := {
  part_ok_calls : calls_ok dim calls;
  part_range : 0 <= first /\ 0 <= n;
  part_trees : forall t, known_tree first n calls t -> In t (class_ids calls);
  part_joins : forall t1 t2 f1 f2 o, In (SetJoin t1 t2 f1 f2 o) calls ->
    (known_tree first n calls t1 -> has_face calls t1 f1) /\ (known_tree first n calls t2 -> has_face calls t2 f2) /\ 0 <= f1 < eclass_max_num_faces dim /\ 0 <= f2 < eclass_max_num_faces dim
}.
(** Where the attributes are stored correctly: the last local tree has one unless no local tree has one, and all ghosts have one unless no ghost has one *)
Definition attrs_dense (first n : Z) (calls : list call) : Prop :=
  ((forall t, local_tree first n t -> ~ has_attribute calls t) \/ has_attribute calls (first + n - 1)) /\
  ((forall t, ghost_tree first n calls t -> ~ has_attribute calls t) \/ (forall t, ghost_tree first n calls t -> has_attribute calls t)).

(** * What a committed mesh answers *)
(** Numbers: every local tree and ghost has a local number, ghosts after the trees, from which its global number is found again; other trees have none.
    In a replicated mesh, where all trees are local, the local and global numbers agree. *)
Definition numbers_right (first n : Z) (calls : list call) (c : cmesh) : Prop :=
  zlen (c_trees c) = n /\
  (forall t, local_tree first n t -> get_local_id c t = t - first) /\
  (forall t, ghost_tree first n calls t -> is_ghost c (get_local_id c t) = true) /\
  (forall t, known_tree first n calls t -> get_global_id c (get_local_id c t) = Ok t) /\
  (forall lt, is_ghost c lt = true -> exists t, ghost_tree first n calls t /\ get_local_id c t = lt).
Definition unknown_right (first n : Z) (calls : list call) (c : cmesh) : Prop := forall t, ~ known_tree first n calls t -> get_local_id c t = -1.
(** Classes: as set *)
Definition classes_right (first n : Z) (calls : list call) (c : cmesh) : Prop :=
  forall t k, known_tree first n calls t -> In (SetClass t k) calls -> get_class c (get_local_id c t) = Ok k.
(** Faces: a joined face leads to the face it is joined with, if that belongs to a tree the process knows; all other faces are boundary *)
Definition faces_right (first n : Z) (calls : list call) (c : cmesh) : Prop :=
  (forall t1 f1 t2 f2 o, known_tree first n calls t1 -> joined calls t1 f1 t2 f2 o -> face_is_boundary c (get_local_id c t1) f1 = Ok false) /\
  (forall t1 f1 t2 f2 o, known_tree first n calls t1 -> known_tree first n calls t2 -> joined calls t1 f1 t2 f2 o ->
     get_face_neighbor c (get_local_id c t1) f1 = Ok (Some (get_local_id c t2, f2, o))) /\
  (forall t1 f1 t2 f2 o, known_tree first n calls t1 -> ~ known_tree first n calls t2 -> joined calls t1 f1 t2 f2 o -> get_face_neighbor c (get_local_id c t1) f1 = Ok None) /\
  (forall t f, known_tree first n calls t -> has_face calls t f -> (forall t2 f2 o, ~ joined calls t f t2 f2 o) ->
     face_is_boundary c (get_local_id c t) f = Ok true /\ get_face_neighbor c (get_local_id c t) f = Ok None).
(** Attributes: the bytes that were set, and nothing for other keys *)
Definition attributes_right (first n : Z) (calls : list call) (c : cmesh) : Prop :=
  (forall t pkg key d, known_tree first n calls t -> In (SetAttribute t pkg key d) calls -> get_attribute c pkg key (get_local_id c t) = Ok (Some d)) /\
  (forall t pkg key, known_tree first n calls t -> (forall d, ~ In (SetAttribute t pkg key d) calls) -> get_attribute c pkg key (get_local_id c t) = Ok None).

(** * What a copy of a mesh answers *)
(** All of the above except the local numbers of ghosts: queries by local number answer as those of the original, except the neighbours of ghosts *)
Definition copy_right (first n : Z) (calls : list call) (c c' : cmesh) : Prop :=
  (forall lt, is_local_tree c' lt = is_local_tree c lt /\ is_ghost c' lt = is_ghost c lt) /\
  (forall t, local_tree first n t -> get_local_id c' t = t - first) /\
  (forall lt, get_class c' lt = get_class c lt /\ get_global_id c' lt = get_global_id c lt) /\
  (forall lt f, face_is_boundary c' lt f = face_is_boundary c lt f) /\
  (forall lt f, is_local_tree c lt = true -> get_face_neighbor c' lt f = get_face_neighbor c lt f) /\
  (forall t pkg key, known_tree first n calls t -> get_attribute c' pkg key (get_local_id c t) = get_attribute c pkg key (get_local_id c t)).
