(** Model of the vertex elements of the default scheme, src/t8_schemes/t8_default/t8_default_vertex/t8_default_vertex.cxx.
    A vertex element only stores its level (t8_dvertex.h, a uint8_t), we identify it with it.  T8_ASSERTs are preconditions. *)
From Verif Require Import Prelude SimplexModel LineModel.

(** 58-62 element_compare *)
Definition v_compare (a b : Z) : Z := a - b.
(** 64-68 element_is_equal *)
Definition v_equal (a b : Z) : bool := a =? b.
(** 70-83 element_get_parent *)
Definition v_parent (e : Z) : Z := e - 1.
(** 125-140 element_get_child *)
Definition v_child (e childid : Z) : Z := e + 1.
(** 159-164 element_get_child_id *)
Definition v_child_id (e : Z) : Z := 0.
(** 166-173 element_get_ancestor_id *)
Definition v_ancestor_id (e level : Z) : Z := 0.
(** 173-182 elements_are_family *)
Definition v_is_family (f : list Z) : bool := 0 <? znth 0 f 0.
(** 184-198 element_get_nca *)
Definition v_nca (a b : Z) : Z := Z.min a b.
(** 220-230 element_set_linear_id *)
Definition v_set_linear_id (level id : Z) : Z := level.
(** 232-240 element_get_linear_id *)
Definition v_linear_id (e level : Z) : Z := 0.
(** 242-264 element_get_first_descendant, element_get_last_descendant *)
Definition v_desc (e level : Z) : Z := level.
(** t8_default_common.hxx:201-226 element_is_ancestor *)
Definition v_is_ancestor (a b : Z) : bool := if b <? a then false else v_linear_id a a =? v_linear_id b a.
(** t8_default_common.hxx:280-286 element_count_leaves (dimension 0) *)
Definition v_count_leaves (e level : Z) : Z := count_leaves_from_level e level 0.
