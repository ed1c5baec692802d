(** Model of the line and vertex elements of the default scheme.
    Cited lines are those of src/t8_schemes/t8_default/t8_default_line/t8_dline_bits.c unless stated otherwise.
    Simplifications: int8/int32/uint64 are Z; in-place aliasing is not modelled; T8_ASSERTs are preconditions of the theorems. *)
From Verif Require Import Prelude SimplexModel.

(** t8_dline.h:43 *)
Definition LMAX : Z := 30.
(** t8_dline.h:49 : 1 << (MAXLEVEL - l) *)
Definition LLEN (l : Z) : Z := Z.shiftl 1 (LMAX - l).
(** t8_dline.h:46 *)
Definition LROOT : Z := Z.shiftl 1 LMAX.
(** t8_dline.h:55-59 struct t8_dline *)
Record dline := Line { ll : Z; lx : Z }.

(** 40-57 t8_dline_compare (for lines inside the root, whose coordinates are not negative) *)
Definition l_compare (a b : dline) : Z :=
  if lx a =? lx b then ll a - ll b else if lx a <? lx b then -1 else 1.
(** 59-63 t8_dline_equal *)
Definition l_equal (a b : dline) : bool := (ll a =? ll b) && (lx a =? lx b).
(** 65-79 t8_dline_parent *)
Definition l_parent (e : dline) : dline := Line (ll e - 1) (clear (lx e) (LLEN (ll e))).
(** 81-89 t8_dline_ancestor *)
Definition l_ancestor (e : dline) (level : Z) : dline := Line level (clear (lx e) (LLEN level - 1)).
(** 91-107 t8_dline_child *)
Definition l_child (e : dline) (childid : Z) : dline :=
  Line (ll e + 1) (lx e + (if childid =? 0 then 0 else LLEN (ll e + 1))).
(** 109-127 t8_dline_face_neighbour: (neighbour, dual face) *)
Definition l_face_neighbour (e : dline) (face : Z) : dline * Z :=
  (Line (ll e) (if face =? 0 then lx e - LLEN (ll e) else lx e + LLEN (ll e)), 1 - face).
(** 129-144 t8_dline_nearest_common_ancestor *)
Definition l_nca (a b : dline) : dline :=
  let level := log2_32 (Z.lxor (lx a) (lx b)) + 1 in
  Line (Z.min (LMAX - level) (Z.min (ll a) (ll b))) (clear (lx a) (Z.shiftl 1 level - 1)).
(** 146-161 t8_dline_ancestor_id *)
Definition l_ancestor_id (e : dline) (level : Z) : Z :=
  if level =? 0 then 0 else if Z.land (lx e) (LLEN level) =? 0 then 0 else 1.
(** 177-183 t8_dline_child_id.  The assertion level < MAXLEVEL of line 180 is not modelled (it rejects lines of the maximum
    level in debug builds, see DESIGN.md). *)
Definition l_child_id (e : dline) : Z := Z.land (Z.shiftr (lx e) (LMAX - ll e)) 1.
(** 163-175 t8_dline_face_parent_face *)
Definition l_face_parent_face (e : dline) (face : Z) : Z :=
  if ll e =? 0 then face else if l_child_id e =? face then face else -1.
(** 185-198 t8_dline_childrenpv *)
Definition l_childrenpv (e : dline) : list dline := [Line (ll e + 1) (lx e); Line (ll e + 1) (lx e + LLEN (ll e + 1))].
(** 214-229 t8_dline_is_familypv *)
Definition dline0 : dline := Line 0 0.
Definition l_is_family (f : list dline) : bool :=
  let f0 := znth dline0 f 0 in let f1 := znth dline0 f 1 in
  let level := ll f0 in
  if (level =? 0) || negb (level =? ll f1) then false
  else if negb (Z.shiftr (lx f0) (LMAX - level + 1) =? Z.shiftr (lx f1) (LMAX - level + 1)) then false
  else lx f0 + LLEN level =? lx f1.
(** 231-245 t8_dline_is_root_boundary *)
Definition l_is_root_boundary (e : dline) (face : Z) : bool :=
  if face =? 0 then lx e =? 0 else lx e =? LROOT - LLEN (ll e).
(** 247-251 t8_dline_is_inside_root *)
Definition l_is_inside_root (e : dline) : bool := (0 <=? lx e) && (lx e <? LROOT).
(** 253-263 t8_dline_init_linear_id *)
Definition l_init_linear_id (level id : Z) : dline := Line level (Z.shiftl id (LMAX - level)).
(** 265-280 t8_dline_successor *)
Definition l_successor (e : dline) (level : Z) : dline := Line level (clear (lx e) (LLEN level - 1) + LLEN level).
(** 282-309 t8_dline_transform_face *)
Definition l_transform_face (e : dline) (orientation : Z) : dline :=
  Line (ll e) (if orientation =? 0 then lx e else LROOT - lx e - LLEN (ll e)).
(** 311-318 t8_dline_first_descendant *)
Definition l_first_descendant (e : dline) (level : Z) : dline := Line level (lx e).
(** 320-327 t8_dline_last_descendant *)
Definition l_last_descendant (e : dline) (level : Z) : dline := Line level (lx e + LLEN (ll e) - LLEN level).
(** 329-339 t8_dline_vertex_integer_coords *)
Definition l_coords (e : dline) (vertex : Z) : Z := if vertex =? 0 then lx e else lx e + LLEN (ll e).
(** 369-380 t8_dline_linear_id *)
Definition l_linear_id (e : dline) (level : Z) : Z := Z.shiftr (lx e) (LMAX - level).
(** t8_default_line.cxx, set_to_root *)
Definition l_root : dline := Line 0 0.
(** t8_default_line.cxx element_get_children_at_face: the child index at a face; element_face_get_child_face *)
Definition l_child_ids_at_face (face : Z) : list Z := [face].
Definition l_face_child_face (face : Z) : Z := face.
(** t8_default_common.hxx:201-226 element_is_ancestor, 280-286 element_count_leaves for lines *)
Definition l_element_is_ancestor (a b : dline) : bool :=
  if ll b <? ll a then false else l_linear_id a (ll a) =? l_linear_id b (ll a).
Definition l_count_leaves (e : dline) (level : Z) : Z := count_leaves_from_level (ll e) level 1.

(** ** vertices: t8_default_vertex.cxx; a vertex element only stores its level, we identify it with it *)
(** t8_dvertex.h T8_DVERTEX_MAXLEVEL *)
Definition VMAX : Z := 254.
(** t8_dline_bits.c:200-212 t8_dline_extrude_face: (line, face number) *)
Definition l_extrude_face (v_level root_face : Z) : dline * Z :=
  (Line v_level (if root_face =? 0 then 0 else LROOT - LLEN v_level), root_face).
(** t8_default_line.cxx element_get_boundary_face: a vertex of the same level *)
Definition l_boundary_face (e : dline) (face : Z) : Z := ll e.

(** ** boundary elements of triangles and tetrahedra *)
(** t8_dtri_connectivity.h / t8_dtri.h: T8_DLINE_ROOT_BY_DTRI_ROOT = 1 << (T8_DLINE_MAXLEVEL - T8_DTRI_MAXLEVEL) *)
Definition DLINE_ROOT_BY_DTRI_ROOT : Z := Z.shiftl 1 (LMAX - MAXLEVEL false).
(** T8_DTRI_ROOT_BY_DTET_ROOT = 1 << (T8_DTRI_MAXLEVEL - T8_DTET_MAXLEVEL) *)
Definition DTRI_ROOT_BY_DTET_ROOT : Z := Z.shiftl 1 (MAXLEVEL false - MAXLEVEL true).

(** t8_default_tri.cxx:280-325 element_extrude_face: (triangle, face number); all divisions are of non-negative numbers *)
Definition tri_extrude_face (l : dline) (root_face : Z) : simp * Z :=
  let s := (lx l * ROOT_LEN false) / LROOT in
  let t := if root_face =? 0 then Simp (ll l) 0 (ROOT_LEN false - LEN false (ll l)) s 0
           else if root_face =? 1 then Simp (ll l) 0 s s 0
           else Simp (ll l) 0 s 0 0 in
  (t, root_face_to_face false t root_face).
(** t8_default_tri.cxx:355-388 element_get_boundary_face *)
Definition tri_boundary_face (t : simp) (face : Z) : dline :=
  Line (lv t) ((if ((face =? 0) && (ty t =? 0)) || ((face =? 2) && (ty t =? 1)) then sy t else sx t) * DLINE_ROOT_BY_DTRI_ROOT).
(** t8_default_tet.cxx:256-296 element_extrude_face: (tetrahedron, face number) *)
Definition tet_extrude_face (b : simp) (root_face : Z) : simp * Z :=
  let bx := (sx b * ROOT_LEN true) / ROOT_LEN false in
  let by' := (sy b * ROOT_LEN true) / ROOT_LEN false in
  let t := if root_face =? 0 then Simp (lv b) (if ty b =? 0 then 0 else 1) (ROOT_LEN true - LEN true (lv b)) by' bx
           else if root_face =? 1 then Simp (lv b) (if ty b =? 0 then 0 else 2) bx by' bx
           else if root_face =? 2 then Simp (lv b) (if ty b =? 0 then 0 else 4) bx by' by'
           else Simp (lv b) (if ty b =? 0 then 0 else 5) bx 0 by' in
  (t, root_face_to_face true t root_face).
(** t8_default_tet.cxx:330-373 element_get_boundary_face; the assertion face_cat = 1 or 2 fails for inner faces *)
Definition tet_boundary_face (t : simp) (face : Z) : outcome simp :=
  let cat := type_face_to_boundary (ty t) face 0 in
  let r := DTRI_ROOT_BY_DTET_ROOT in
  let ty' := type_face_to_boundary (ty t) face 1 in
  if cat =? 1 then Ok (Simp (lv t) ty' (sz t * r) (sy t * r) 0)
  else if cat =? 2 then Ok (Simp (lv t) ty' (sx t * r) (sz t * r) 0)
  else AssertFail.
