(** The interface through which the forest algorithms use the elements of one tree class: the functions of t8_scheme
    (src/t8_schemes/t8_scheme.hxx, class t8_scheme, which dispatches each call to the scheme of the tree's class).
    A [scheme] value is one such class; the concrete ones are in SchemeInstances.v. *)
From Verif Require Import Prelude.

Record scheme := Scheme {
  elt : Type;
  s_root : elt;                          (** t8_scheme.hxx set_to_root *)
  s_level : elt -> Z;                    (** element_get_level *)
  s_maxlevel : Z;                        (** get_maxlevel *)
  s_max_children : Z;                    (** get_max_num_children *)
  s_num_children : elt -> Z;             (** element_get_num_children *)
  s_num_siblings : elt -> Z;             (** element_get_num_siblings *)
  s_child : elt -> Z -> elt;             (** element_get_child *)
  s_parent : elt -> elt;                 (** element_get_parent *)
  s_child_id : elt -> Z;                 (** element_get_child_id *)
  s_is_family : list elt -> bool;        (** elements_are_family *)
  s_equal : elt -> elt -> bool;          (** element_is_equal *)
  s_compare : elt -> elt -> Z;           (** element_compare *)
  s_nca : elt -> elt -> elt;             (** element_get_nca *)
  s_is_ancestor : elt -> elt -> bool;    (** element_is_ancestor (A, B): A is an ancestor of B *)
  s_linear_id : elt -> Z -> Z;           (** element_get_linear_id *)
  s_set_linear_id : Z -> Z -> elt;       (** element_set_linear_id (level, id) *)
  s_successor : elt -> elt;              (** element_construct_successor *)
  s_first_desc : elt -> Z -> elt;        (** element_get_first_descendant *)
  s_last_desc : elt -> Z -> elt;         (** element_get_last_descendant *)
  s_count_root : Z -> Z;                 (** count_leaves_from_root, a t8_gloidx_t *)
  s_ancestor_id : elt -> Z -> Z          (** element_get_ancestor_id *)
}.
Arguments Scheme {elt}.
Arguments s_level {s}.
Arguments s_num_children {s}.
Arguments s_num_siblings {s}.
Arguments s_child {s}.
Arguments s_parent {s}.
Arguments s_child_id {s}.
Arguments s_is_family {s}.
Arguments s_equal {s}.
Arguments s_compare {s}.
Arguments s_nca {s}.
Arguments s_is_ancestor {s}.
Arguments s_linear_id {s}.
Arguments s_successor {s}.
Arguments s_first_desc {s}.
Arguments s_last_desc {s}.
Arguments s_ancestor_id {s}.

(** t8_scheme.hxx element_get_children: all children in order *)
Definition s_children (S : scheme) (e : elt S) : list (elt S) := map (s_child e) (zseq 0 (Z.to_nat (s_num_children e))).
(** t8_default_common.hxx:295-300 element_is_refinable *)
Definition s_refinable (S : scheme) (e : elt S) : bool := s_level e <? s_maxlevel S.
Arguments s_children {S} e.
Arguments s_refinable {S} e.
