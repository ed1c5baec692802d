(** Specification of the element class tables: the reference shape of a class is the polytope with the corners of the class.  A subset
    of the corners is a proper face when some affine function is non-negative on all corners, is positive on one of them, and vanishes
    exactly on the subset.  The faces of a class are the largest of the proper faces, its edges are the proper faces with two corners. *)
From Verif Require Import Prelude EclassModel.

Definition point := (Z * Z * Z)%type.
Definition affine (n : point) (k : Z) (x : point) : Z := let '(a, b, c) := n in let '(x, y, z) := x in a * x + b * y + c * z + k.
Definition vec (p q : point) : point := let '(a, b, c) := p in let '(x, y, z) := q in (x - a, y - b, z - c).
Definition dot (p q : point) : Z := let '(a, b, c) := p in let '(x, y, z) := q in a * x + b * y + c * z.
Definition cross (p q : point) : point := let '(a, b, c) := p in let '(x, y, z) := q in (b * z - c * y, c * x - a * z, a * y - b * x).

Definition is_class c := 0 <= c < ECLASS_COUNT.
Definition is_corner c v := 0 <= v < eclass_num_vertices c.
Definition is_face c f := 0 <= f < eclass_num_faces c.

(** [supporting c n k]: the function is non-negative on the shape and not everywhere zero *)
Definition supporting c n k :=
  (forall v, is_corner c v -> 0 <= affine n k (corner_ref_coords c v)) /\ exists v, is_corner c v /\ 0 < affine n k (corner_ref_coords c v).
Definition proper_face c (U : Z -> Prop) :=
  exists n k, supporting c n k /\ forall v, is_corner c v -> (U v <-> affine n k (corner_ref_coords c v) = 0).
Definition is_edge c v w := is_corner c v /\ is_corner c w /\ v <> w /\ proper_face c (fun u => u = v \/ u = w).

(** what the tables say *)
Definition table_face c f : list Z := map (face_vertex_to_tree_vertex c f) (zseq 0 (Z.to_nat (eclass_num_vertices (eclass_face_types c f)))).
Definition table_edge c e : Z * Z := (edge_vertex_to_tree_vertex c e 0, edge_vertex_to_tree_vertex c e 1).
Definition edge_in_face c e f := In (fst (table_edge c e)) (table_face c f) /\ In (snd (table_edge c e)) (table_face c f).
Definition corner_on_edge c v e := v = fst (table_edge c e) \/ v = snd (table_edge c e).
Definition increasing (l : list Z) := forall i j, (i < j < length l)%nat -> nth i l 0 < nth j l 0.
