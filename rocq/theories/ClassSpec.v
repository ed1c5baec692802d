(** The elements of a tree in terms of the element interface alone, and the classes of elements that are modelled. *)
From Verif Require Import Prelude SchemeModel SchemeInstances HyperModel HyperScheme CubeScheme PrismScheme PyramidScheme.

(** f can be obtained from e by repeated refinement *)
Inductive reach {S : scheme} (e : elt S) : elt S -> Prop :=
| reach_self : reach e e
| reach_child f i : reach e f -> s_level f < s_maxlevel S -> 0 <= i < s_num_children f -> reach e (s_child f i).
(** the elements of a tree *)
Definition element {S : scheme} (e : elt S) : Prop := reach (s_root S) e.

(** the classes of the default scheme: vertices, lines, triangles (false) and tetrahedra (true), quadrilaterals (false) and hexahedra (true),
    prisms, pyramids; and the vertices, lines, quadrilaterals and hexahedra of the standalone scheme *)
Inductive element_class : scheme -> Prop :=
| class_vertex : element_class vertex_scheme
| class_line : element_class line_scheme
| class_simplex tet : element_class (simplex_scheme tet)
| class_cube oct : element_class (cube_scheme oct)
| class_prism : element_class prism_scheme
| class_pyramid : element_class pyramid_scheme
| class_standalone c : element_class (hyper_scheme c).
