(** Model of src/t8_eclass/t8_eclass.h, t8_eclass.c and of the corner coordinates in src/t8_element/t8_element.cxx.

    An element class is its enum value 0..7 (t8_eclass.h:43-66).  A C array initialiser that lists fewer values than the array has
    entries leaves the rest zero; the access functions below do the same, and give 0 for an index outside the array (all theorems use
    indices inside the arrays). *)
From Verif Require Import Prelude.

(** t8_eclass.h:43-66 *)
Definition VERTEX := 0. Definition LINE := 1. Definition QUAD := 2. Definition TRIANGLE := 3.
Definition HEX := 4. Definition TET := 5. Definition PRISM := 6. Definition PYRAMID := 7.
Definition ECLASS_COUNT := 8.

Definition get1 (t : list Z) (i : Z) : Z := znth 0 t i.
Definition get2 (t : list (list Z)) (i j : Z) : Z := znth 0 (znth [] t i) j.
Definition get3 (t : list (list (list Z))) (i j k : Z) : Z := znth 0 (znth [] (znth [] t i) j) k.

(** t8_eclass.h:92-99 *)
Definition eclass_to_dimension (c : Z) : Z := get1 [0; 1; 2; 2; 3; 3; 3; 3] c.
Definition eclass_num_faces (c : Z) : Z := get1 [0; 2; 4; 3; 6; 4; 5; 5] c.
Definition eclass_max_num_faces (dim : Z) : Z := get1 [0; 2; 4; 6] dim.
Definition eclass_max_num_children (c : Z) : Z := get1 [1; 2; 4; 4; 8; 8; 8; 10] c.

(** t8_eclass.h:100-109 *)
Definition face_vertex_to_tree_vertex (c f i : Z) : Z := get3
  [ [[-1]];
    [[0]; [1]];
    [[0; 2]; [1; 3]; [0; 1]; [2; 3]];
    [[1; 2]; [0; 2]; [0; 1]];
    [[0; 2; 4; 6]; [1; 3; 5; 7]; [0; 1; 4; 5]; [2; 3; 6; 7]; [0; 1; 2; 3]; [4; 5; 6; 7]];
    [[1; 2; 3]; [0; 2; 3]; [0; 1; 3]; [0; 1; 2]];
    [[1; 2; 4; 5]; [0; 2; 3; 5]; [0; 1; 3; 4]; [0; 1; 2]; [3; 4; 5]];
    [[0; 2; 4]; [1; 3; 4]; [0; 1; 4]; [2; 3; 4]; [0; 1; 2; 3]] ] c f i.
(** t8_eclass.h:111-120 *)
Definition face_edge_to_tree_edge (c f i : Z) : Z := get3
  [ [[-1]];
    [[0]];
    [[0]; [1]; [2]; [3]];
    [[0]; [1]; [2]];
    [[8; 10; 4; 6]; [9; 11; 5; 7]; [8; 9; 0; 2]; [10; 11; 1; 3]; [4; 5; 0; 1]; [6; 7; 2; 3]];
    [[3; 4; 5]; [1; 2; 5]; [0; 2; 4]; [0; 1; 3]];
    [[0; 7; 3; 6]; [1; 8; 4; 7]; [2; 6; 5; 8]; [0; 1; 2]; [3; 4; 5]];
    [[-1]] ] c f i.
(** t8_eclass.h:122-131 *)
Definition face_to_edge_neighbor (c f i : Z) : Z := get3
  [ [[-1]];
    [[-1]];
    [[2; 3]; [2; 3]; [0; 1]; [0; 1]];
    [[2; 1]; [2; 0]; [1; 0]];
    [[0; 1; 2; 3]; [0; 1; 2; 3]; [4; 5; 6; 7]; [4; 5; 6; 7]; [8; 9; 10; 11]; [8; 9; 10; 11]];
    [[0; 1; 2]; [0; 3; 4]; [1; 3; 5]; [2; 4; 5]];
    [[1; 2; 4; 5]; [0; 2; 3; 5]; [0; 1; 3; 4]; [6; 7; 8]; [6; 7; 8]];
    [[-1]] ] c f i.
(** t8_eclass.h:133-142 *)
Definition edge_vertex_to_tree_vertex (c e i : Z) : Z := get3
  [ [[-1]];
    [[0]; [1]];
    [[0; 2]; [1; 3]; [0; 1]; [2; 3]];
    [[1; 2]; [0; 2]; [0; 1]];
    [[0; 1]; [2; 3]; [4; 5]; [6; 7]; [0; 2]; [1; 3]; [4; 6]; [5; 7]; [0; 4]; [1; 5]; [2; 6]; [3; 7]];
    [[0; 1]; [0; 2]; [0; 3]; [1; 2]; [1; 3]; [2; 3]];
    [[1; 2]; [0; 2]; [0; 1]; [4; 5]; [3; 5]; [3; 4]; [1; 4]; [2; 5]; [0; 3]];
    [[-1]] ] c e i.
(** t8_eclass.h:144-153 *)
Definition edge_to_face (c e i : Z) : Z := get3
  [ [[-1]];
    [[0]];
    [[0]; [1]; [2]; [3]];
    [[0]; [1]; [2]];
    [[2; 4]; [3; 4]; [2; 5]; [3; 5]; [0; 4]; [1; 4]; [0; 5]; [1; 5]; [0; 2]; [1; 2]; [0; 3]; [1; 3]];
    [[2; 3]; [1; 3]; [1; 2]; [0; 3]; [0; 2]; [0; 1]];
    [[0; 3]; [1; 3]; [2; 3]; [0; 4]; [1; 4]; [2; 4]; [0; 2]; [0; 1]; [1; 2]];
    [[-1]] ] c e i.
(** t8_eclass.h:155-164 *)
Definition eclass_face_orientation (c f : Z) : Z := get2
  [ [0; -1; -1; -1; -1; -1]; [0; 0; -1; -1; -1; -1]; [0; 0; 0; 0; -1; -1]; [0; 0; 0; -1; -1; -1];
    [0; 1; 1; 0; 0; 1]; [0; 1; 0; 1; -1; -1]; [1; 0; 1; 0; 1; -1]; [0; 1; 1; 0; 0; -1] ] c f.
(** t8_eclass.h:166 *)
Definition reference_face_normal_tet (f i : Z) : Z := get2 [[-1; 0; 0]; [1; 0; -1]; [0; -1; 1]; [0; 1; 0]] f i.
(** t8_eclass.h:169-171 *)
Definition eclass_num_vertices (c : Z) : Z := get1 [1; 2; 4; 3; 8; 4; 6; 5] c.
Definition eclass_num_edges (c : Z) : Z := get1 [0; 1; 4; 3; 12; 6; 9; 8] c.
(** t8_eclass.h:175-184 *)
Definition eclass_vtk_to_t8_corner_number (c i : Z) : Z := get2
  [ [0; -1; -1; -1; -1; -1; -1; -1]; [0; 1; -1; -1; -1; -1; -1; -1]; [0; 1; 3; 2; -1; -1; -1; -1]; [0; 1; 2; -1; -1; -1; -1; -1];
    [0; 1; 3; 2; 4; 5; 7; 6]; [0; 2; 1; 3; -1; -1; -1; -1]; [0; 2; 1; 3; 5; 4; -1; -1]; [0; 1; 3; 2; 4; -1; -1; -1] ] c i.
(** t8_eclass.h:186-195 *)
Definition eclass_t8_to_vtk_corner_number (c i : Z) : Z := get2
  [ [0; -1; -1; -1; -1; -1; -1; -1]; [0; 1; -1; -1; -1; -1; -1; -1]; [0; 1; 3; 2; -1; -1; -1; -1]; [0; 1; 2; -1; -1; -1; -1; -1];
    [0; 1; 3; 2; 4; 5; 7; 6]; [0; 2; 1; 3; -1; -1; -1; -1]; [0; 2; 1; 3; 5; 4; -1; -1]; [0; 1; 3; 2; 4; -1; -1; -1] ] c i.
(** t8_eclass.h:197-206 *)
Definition eclass_face_types (c f : Z) : Z := get2
  [ [-1; -1; -1; -1; -1; -1]; [0; 0; -1; -1; -1; -1]; [1; 1; 1; 1; -1; -1]; [1; 1; 1; -1; -1; -1];
    [2; 2; 2; 2; 2; 2]; [3; 3; 3; 3; -1; -1]; [2; 2; 2; 3; 3; -1]; [3; 3; 3; 3; 2; -1] ] c f.
(** t8_eclass.h:208-217 *)
Definition eclass_boundary_count (c t : Z) : Z := get2
  [ [0; 0; 0; 0; 0; 0; 0; 0]; [2; 0; 0; 0; 0; 0; 0; 0]; [4; 4; 0; 0; 0; 0; 0; 0]; [3; 3; 0; 0; 0; 0; 0; 0];
    [8; 12; 6; 0; 0; 0; 0; 0]; [4; 6; 0; 4; 0; 0; 0; 0]; [6; 9; 3; 2; 0; 0; 0; 0]; [5; 8; 1; 4; 0; 0; 0; 0] ] c t.

(** t8_eclass.c:74-87, t8_eclass_count_boundary: the returned sum and the array per_eclass *)
Definition eclass_count_boundary (c min_dim : Z) : Z * list Z :=
  fold_left (fun '(sum, per) t =>
    if min_dim <=? eclass_to_dimension t then (sum + eclass_boundary_count c t, per ++ [eclass_boundary_count c t])
    else (sum, per ++ [0])) (zseq 0 (Z.to_nat ECLASS_COUNT)) (0, []).

(** t8_eclass.c:89-124, t8_eclass_compare; both assertions are modelled *)
Definition eclass_compare (c1 c2 : Z) : outcome Z :=
  let dim := eclass_to_dimension c1 in
  if negb (dim =? eclass_to_dimension c2) then AssertFail
  else if c1 =? c2 then Ok 0
  else if dim =? 2 then Ok (if c1 =? TRIANGLE then -1 else 1)
  else if negb (dim =? 3) then AssertFail
  else if c1 =? TET then Ok (-1)
  else if c1 =? HEX then Ok (if c2 =? TET then 1 else -1)
  else if c1 =? PRISM then Ok (if c2 =? PYRAMID then -1 else 1)
  else if c1 =? PYRAMID then Ok 1 else AssertFail.

(** t8_eclass.c:126-133; eclass is the value of an (unsigned) enum *)
Definition eclass_is_valid (c : Z) : bool := c <? ECLASS_COUNT.

(** src/t8_element/t8_element.cxx:29-39, t8_element_corner_ref_coords; the entries are doubles with the exact integer values 0 and 1 *)
Definition corner_ref_coords (c v : Z) : Z * Z * Z := znth (0, 0, 0) (znth []
  [ [(0, 0, 0)];
    [(0, 0, 0); (1, 0, 0)];
    [(0, 0, 0); (1, 0, 0); (0, 1, 0); (1, 1, 0)];
    [(0, 0, 0); (1, 0, 0); (1, 1, 0)];
    [(0, 0, 0); (1, 0, 0); (0, 1, 0); (1, 1, 0); (0, 0, 1); (1, 0, 1); (0, 1, 1); (1, 1, 1)];
    [(0, 0, 0); (1, 0, 0); (1, 0, 1); (1, 1, 1)];
    [(0, 0, 0); (1, 0, 0); (1, 1, 0); (0, 0, 1); (1, 0, 1); (1, 1, 1)];
    [(0, 0, 0); (1, 0, 0); (0, 1, 0); (1, 1, 0); (1, 1, 1)] ] c) v.
