(** Model of t8_cmesh_set_join_by_stash (src/t8_cmesh/t8_cmesh_helpers.cxx): the search for face connections for the classes and vertices that the user
    has set for a mesh (CmeshModel.v).  The attributes are bytes; doubles are read from them in the format of IEEE 754, least byte first. *)
From Coq Require Import SpecFloat.
From Verif Require Import Prelude EclassModel FloatModel CmeshModel JoinModel.

(** t8_cmesh_types.h:58 T8_CMESH_VERTICES_ATTRIBUTE_KEY *)
Definition VERTICES_KEY := 0.
(** the double with the given eight bytes *)
Definition double_of (l : list Z) : spec_float :=
  let n := unle l in
  let s := 2 ^ 63 <=? n in
  let e := (n / 2 ^ 52) mod 2 ^ 11 in
  let f := n mod 2 ^ 52 in
  if e =? 0 then (if f =? 0 then S754_zero s else S754_finite s (Z.to_pos f) (-1074))
  else if e =? 2047 then (if f =? 0 then S754_infinity s else S754_nan)
  else S754_finite s (Z.to_pos (f + 2 ^ 52)) (e - 1075).

(** t8_cmesh_helpers.cxx:269-273: eclasses[entry->id] = entry->eclass, in a vector of n classes *)
Fixpoint stash_classes (n : Z) (eclasses : Z -> Z) (l : list sclass) : outcome (Z -> Z) :=
  match l with
  | [] => Ok eclasses
  | k :: r => if (0 <=? k_id k) && (k_id k <? n) then stash_classes n (fun t => if t =? k_id k then k_class k else eclasses t) r else Oob
  end.
(** t8_cmesh_helpers.cxx:276-285: the vertices of tree t are copied to the doubles from index T8_3D_TO_1D (ntrees, 8, 3, t, 0, 0) = 24 t on *)
Fixpoint stash_vertices (pkg : Z) (vertices : memory) (l : list sattr) : outcome memory :=
  match l with
  | [] => Ok vertices
  | a :: r =>
      do v <- (if (a_key a =? VERTICES_KEY) && (a_pkg a =? pkg) then put vertices (8 * (24 * a_id a)) (a_data a) else Ok vertices);
      stash_vertices pkg v r
  end.
(** double number i of the vector *)
Definition vector_double (vertices : memory) (i : Z) : spec_float := double_of (map (m_at vertices) (zseq (8 * i) 8)).
Definition vector_point (vertices : memory) (t v : Z) : point :=
  (vector_double vertices (24 * t + 3 * v), vector_double vertices (24 * t + 3 * v + 1), vector_double vertices (24 * t + 3 * v + 2)).
(** t8_cmesh_helpers.cxx:258-285: the trees that are passed to t8_cmesh_set_join_by_vertices; vectors are initially zero *)
Definition stash_mesh (pkg : Z) (b : building) : outcome (list jtree) :=
  let n := zlen (b_classes b) in
  do eclasses <- stash_classes n (fun _ => 0) (b_classes b);
  do vertices <- stash_vertices pkg (mkMem 0 (8 * (24 * n)) (fun _ => 0)) (b_attrs b);
  Ok (map (fun t => mkJtree (eclasses t) (map (vector_point vertices t) (zseq 0 (Z.to_nat (eclass_num_vertices (eclasses t)))))) (zseq 0 (length (b_classes b)))).
(** t8_cmesh_helpers.cxx:258-290: the connectivity array and the mesh with the joins *)
Definition join_by_stash (pkg : Z) (b : building) (both : bool) : outcome ((face -> connection) * building) :=
  do m <- stash_mesh pkg b;
  do conn <- join_by_vertices m both;
  do b' <- run_calls b (join_calls m conn);
  Ok (conn, b').
