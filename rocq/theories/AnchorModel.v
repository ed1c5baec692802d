(** Model of element_get_anchor for triangles and tetrahedra; that for prisms is [p_anchor] in PrismModel.v. *)
From Verif Require Import Prelude SimplexModel.

(** t8_default_tri.cxx:463-472 and t8_default_tet.cxx:447-456 element_get_anchor *)
Definition get_anchor (tet : bool) (e : simp) : Z * Z * Z := if tet then (sx e, sy e, sz e) else (sx e, sy e, 0).
