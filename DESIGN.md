# Formal model of t8code: design

The source in /repo is read as text; nothing of it is built or run. The model is a set of Coq (8.16.1) files in
`rocq/theories`. Each area has
- a model file (`*Model.v`): computable Gallina functions, one per modelled C/C++ function, each with a comment citing the
  file and lines it models and naming simplifications;
- a specification (`*Spec.v`, or a marked section at the top of the property file): the vocabulary of the English
  properties, defined independently of the model's helpers;
- proof files (`*Proofs.v`);
- property files (`Properties*.v`): only theorems closed by `exact`, each followed by `Print Assumptions` and by an
  `Example` instantiating its hypotheses.

## Conventions of the model

- Integers are `Z`. Where overflow is part of a property (uniform partition arithmetic, linear ids) the wrap `mod 2^64` is
  written into the model or a range lemma is proved. Bit operations are `Z.land`, `Z.lor`, `Z.shiftl`, `Z.shiftr`, `Z.lxor`.
- Out-of-bounds accesses and violated `T8_ASSERT`s are explicit: the function returns `None`/an error constructor.
- Loops are structural recursion, folds, or fuelled recursion with an explicit out-of-fuel outcome that the theorems exclude.
- MPI ranks are indices of a list of per-rank states. A collective (allgather, allreduce, prefix) is a function of that list.
  Point-to-point messages form a pool; a receive may take any matching message (arbitrary schedule).

## Specification vocabulary

- *Path semantics.* An element of a tree is identified with the list of child indices leading to it from the root. The order
  of elements is the lexicographic order of paths, a linear id at level L is the rank of the path among the paths of length L.
- *Geometric semantics.* An element is a set of (rational) points; children tile the parent, faces are sets of vertices.
- *Tilings.* A leaf list tiles an element if it is the element itself or the concatenation of tilings of its children.
- *Partition tables.* A table of P+1 entries describes ranges; the trees of rank p are those from its first tree to its last.

## Plan per property

| id | modelled | proof |
|----|----------|-------|
| C01 | child/parent/child_id of line, tri, tet, prism, pyramid (default scheme) and line/quad/hex of the standalone scheme | table case analysis plus bit lemmas, for every coordinate and level |
| C02 | set_linear_id, get_linear_id | induction on the level, ids as base-2^d numerals of the path |
| C03 | successor | via C02 |
| C04 | compare | order on (id at max level, level) |
| C05 | first/last descendant | via the path semantics |
| C06 | nca | bit length of the xor of coordinates = length of common path prefix |
| C07 | is_ancestor | via C02 |
| C08 | is_family | soundness and completeness; refuted where the code misses a check |
| C09 | child, vertex coordinates | point-in-element predicates, linear arithmetic |
| C10 | face_neighbour | vertex sets, linear arithmetic |
| C11 | is_inside_root, is_root_boundary | path semantics vs. coordinate test |
| C12 | children_at_face, face_child_face, face_parent_face | geometric containment |
| C13 | extrude_face, boundary_face | arithmetic |
| C14 | transform_face | group action, arithmetic |
| C15 | count_leaves | counting paths |
| C16 | MPI_Pack/unpack of elements | codec round trip |
| C17 | t8_forest_populate + uniform bounds | partition arithmetic + C02/C03 |
| C18-C20 | t8_forest_adapt | induction over the loop, tilings |
| C21-C25 | t8_forest_partition | lists of ranks, offsets |
| C26-C28 | t8_cmesh_offset.c | binary search invariants |
| C29 | t8_forest_element_find_owner | search invariant |
| C30 | t8_forest_bin_search_* | sortedness |
| C31 | t8_forest_search | induction over recursion |
| C32 | t8_forest_iterate_replace | induction over leaf lists |
| C33 | t8_forest_balance, its adapt callback, the rounds with ghosts and repartition | invariant of the rounds, the number of leaves of the finest level below leaves as a measure, fixed point |
| C34 | t8_forest_leaf_face_neighbors_ext | result buffer handling over leaf arrays |
| C35 | get_leaf_element | offsets |
| C36 | ghost creation and exchange | symmetric construction, message pool |
| C37 | partition_for_coarsening | family ranges |
| C38 | t8_eclass.c tables | finite case analysis (the domain is finite) |
| C39 | t8_refcount.c and the ownership protocol | invariant over operations |
| C40 | uniform bounds, on replicated and partitioned coarse meshes | arithmetic; messages of every process as a function of the element ranges |
| C41 | create_tree_offsets, create_first_desc, tree_shared | keys (tree, id) of the leaf sequence |
| C42 | ghost creation (three versions), owners at a face, messages | recursion over faces, exchange in any order |
| C43 | t8_forest_element_face_neighbor, boundary and extrude functions | tables per type, induction over levels |
| C44 | owners at a face, bounds of the owners | recursion over faces |
| C45 | t8_forest_is_balanced | from the exactness of the callback |
| C46 | element_get_anchor | vertex coordinates |
| C47 | stash, commit of replicated and partitioned coarse meshes, queries | invariants of the loops over classes, joins and attributes |
| C48 | attribute block, byte by byte | invariant: which infos and data are written; binary search |
| C49 | t8_cmesh_copy | size of the block from the attribute infos |
| C50 | global vertices of trees, lists of trees at global vertices and back | the map is a grouping of the added pairs; sorted permutations of 0, ..., k - 1 |
| C51 | the search for face connections by vertex coordinates, on doubles | invariant of the loop over the sorted faces; hashes are sums, so they do not depend on the order of the corners |

Findings (places where the faithful model violates the property) are recorded at the end of this file with the theorem that
proves them.

## What is modelled, area by area

- *Elements* (`SimplexModel`, `LineModel`, `VertexModel`, `PrismModel`, `PyramidModel`): the default scheme's triangles, tetrahedra, lines,
  vertices, prisms and pyramids, function by function. A prism is a pair of a line and a triangle; its geometry is proved to be the product
  of theirs. The elements of a pyramid tree are pyramids of two types and tetrahedra; a tetrahedron carries the level at which its shape
  changed (`PyramidModel`, and `PyramidBdyModel` for boundary_face and extrude_face). `HyperModel` has the vertices, lines, quadrilaterals and hexahedra of the
  standalone scheme, which share one implementation. `CubeModel` has the quadrilaterals and hexahedra of the default scheme: children, faces,
  boundary, extrusion, transformation, vertices, anchor and counts are code of /repo and modelled as such; parent, child id, families,
  linear ids, descendants, successor, common ancestor, comparison, the face neighbour and the inside test are calls of p4est, whose
  source is not in /repo. For these the documented result is taken as a contract (the functions of `HyperModel` for the coordinates and
  levels of p4est, and `p4_..`), so C02-C06 and C08 for these two classes say that the contract fits the code, not that p4est meets
  it. `TransferProofs` carries the laws of a scheme over to one whose functions agree with it on its elements. `SchemeModel` turns a class into a record of functions (`scheme`), `SchemeSpec` states the laws the
  forest algorithms rely on, `SchemeInstances` proves the laws for the modelled classes. Forest theorems quantify over every
  scheme that satisfies the laws.
- *Offset tables* (`OffsetModel`): all functions of t8_cmesh_offset.c.
- *Adaptation* (`AdaptModel`): t8_forest_adapt for one tree, both modes, including the family test and the coarsening
  recursion. The callback is an arbitrary function of the leaf list and the position.
- *Leaf arrays* (`LeafModel`): the binary searches over leaf arrays and the leaf access by index.
- *Search* (`SearchModel`): t8_forest_split_array with sc_array_split (libsc is not in /repo; its loop is reproduced from memory of
  libsc and part of the trusted base), the classes t8_search, t8_search_with_queries and t8_search_with_batched_queries, and the C
  function t8_forest_search. Callbacks are arbitrary functions with a state. Not modelled: the partition search.
- *Comparison of forests* (`ReplaceModel`): t8_forest_iterate_replace with its assertions; the calls of the callback are collected.
- *Messages* (`NetModel`): a network of ranks that run a fixed list of sends and receives. A step lets any rank that is not
  blocked execute its next action, so a run is an arbitrary schedule. Messages between two ranks are not reordered (MPI's
  non-overtaking rule); messages of different senders arrive in any order.
- *Partition* (`PartitionModel`): computation of the new offsets, the send and receive ranges, the message contents and their
  unpacking, for elements and for user data. The byte layout of the messages is abstracted to a record (tree headers and
  element lists); the size computation and padding of the buffers are not modelled.

- *Partition for coarsening* (`PfcModel`): the choice of partner ranks, the messages, the local sibling search, the correction of the
  table and the final allgatherv. A message is a value: t8_forest_pfc_message.hxx:150-163 frees the packed buffer right after
  MPI_Isend, before the send has completed, which MPI does not allow; the model assumes the data arrive nevertheless.

- *Offsets in double arithmetic* (`FloatModel`, `WeightModel`): the unweighted and the weighted computation of the new element
  offsets, with the executable IEEE 754 specification of the standard library (`Coq.Floats.SpecFloat`). The proofs go through
  Flocq's theorems that these operations round the real result. Contraction of operations to fused multiply-adds is not modelled.

- *Owner search* (`OwnerModel`): the tables of tree offsets, element offsets and first descendants made from the leaves of all
  ranks, t8_forest_element_find_owner(_ext) and t8_forest_element_check_owner. Collectives are functions of all ranks' values.

- *Uniform forests* (`UniformModel`): the element ranges of the processes in 64 bit arithmetic, the bounds for equal and for different
  numbers of elements per tree on a replicated coarse mesh, t8_forest_populate, and the tree table of a uniformly partitioned coarse
  mesh.
- *Uniform bounds on a partitioned coarse mesh* (`PartBoundsModel`, specification `PartBoundsSpec`): t8_cmesh_uniform_bounds_from_partition with
  t8_cmesh_determine_partition, the long double arithmetic of t8_A_times_B_over_C (64 binary digits, half to even, as on x86-64), vector_split,
  the binary search in the offset array and all messages between the processes. A receive without a message is the outcome OutOfFuel.
  Not modelled: the buffer of the messages. The requests are passed to the send function by value (t8_cmesh.cxx:1785), so the final wait
  waits for nothing and the buffer is released while sends may be under way.

- *Coarse meshes* (`CmeshModel`, specification `CmeshSpec`): the calls that set classes, face connections and attributes, the commit of replicated
  and partitioned meshes from them, the queries of classes, numbers, face neighbours and attributes, and the copy. The attribute infos and
  data are modelled byte by byte at the offsets the code computes; trees, ghosts and face neighbours are records, of whose place in
  memory only the offsets are kept. Sorting is a stable insertion sort in place of sc_array_sort (keys are unique, so the result is the same). Not
  modelled: geometries, the derivation by partition, meshes of several parts (which only arise by partition), files.

- *Vertex connectivity* (`VertexConnModel`, specification `VertexConnSpec`): t8_cmesh_vertex_conn_tree_to_vertex and _vertex_to_tree and the
  queries of t8_cmesh_vertex_connectivity, on top of the attributes of coarse meshes. The hash map is an association list; the
  constructor that iterates over it is proved for every order. The state of t8_cmesh_vertex_connectivity itself is not modelled.

- *Joining by vertices* (`JoinModel`, specification `JoinSpec`): t8_cmesh_set_join_by_vertices with all its double operations. The multimap is the
  list of its entries in the order of insertion, the connectivity array a function of the face. The theorems ask that the comparison with
  the tolerance tells different vertices of the mesh apart and that the coordinates have bins; both are stated with the functions
  of the model, `same_point` and `bin`. `C51_coordinates_suffice` derives both from the coordinates (`JoinCoordSpec`): finite coordinates
  between the least and greatest counted one, which differ by 2^-20 to 2^40, and different vertices at least 2^-48 of that apart in some
  coordinate. `C51_bounds` says that the bounds are the least and greatest counted coordinate. `C51_committed_mesh` composes the search with the
  commit of the mesh (`CmeshModel`). `JoinStashModel` is t8_cmesh_set_join_by_stash, with the bytes of the attributes decoded as
  IEEE doubles (least byte first); `C51_stash` says that it joins the trees that any calls in any order have described, and `C51_stash_committed`
  gives the neighbours in the committed mesh.

- *Element class tables* (`EclassModel`): all tables of t8_eclass.h (except names and VTK types), the three functions of t8_eclass.c
  and the corner coordinates of the reference shapes.

- *Messages* (`PackModel`): element_MPI_Pack, _Pack_size and _Unpack of all eight default classes and of the standalone classes, pack,
  unpack and pack_size of the messages of partition for coarsening, and t8_vector_handler for any item handler. MPI_Pack is a copy of
  the bytes of the object; the conversion between different machines is not modelled.

- *Reference counts* (`RefcountModel`): a heap of schemes, geometry handlers, coarse meshes, forests and searches with the pointers
  between them; ref, unref and destruction, the set functions that take ownership, t8_cmesh_commit, t8_forest_commit with its
  intermediate forests (adapt, partition, balance in every combination), t8_forest_new_uniform, t8_forest_new_adapt, the searches.
  A read of freed memory is a distinct outcome. `RefcountSpec` states the ownership protocol. While an object is reset or
  committed it is taken from the model's heap, so that any other access to it would show. Not modelled: shared memory
  arrays, the ghost layer, the vertex connectivity and the copy constructor of the search classes.

- *Faces* (`FaceModel`): the face functions of the element interface (children at a face, face of a child, face of the parent, first and
  last descendant at a face) for vertices, lines, triangles and tetrahedra; `FaceSpec` states the laws the ghost code relies on.
- *Face neighbours* (`NeighborModel`): t8_forest_element_face_neighbor for meshes of one class with any connectivity of the trees
  (t8_cmesh_get_face_neighbor is a function), with the boundary, transform and extrude functions of lines, triangles, tetrahedra,
  quadrilaterals, hexahedra and standalone hypercubes. `HybridModel` is the same function for meshes whose trees have different classes
  of the default scheme, with the computation of the neighbour's class and of the orientation for different classes; an element at
  the face between the trees is a `bdy` (`BdyModel`), which also has the boundary and extrude functions of prisms; those of
  pyramids are in `PyramidBdyModel`. `pyramid_faces` differs from the code in one place: where F27 leaves the descendant at a face unset
  it has the element. So C33, C34 and C42 for hybrid meshes are about meshes without pyramids, and `_partial` with them; C43 does not use
  these descendants and is for all classes.
- *Ghosts* (`GhostModel`): owners at a face and their bounds, the three versions of the ghost creation, the remote elements, the
  messages, receiving them in any order, and the exchange of ghost data. A message is a value (trees and their elements); the byte
  layout with its padding is not modelled. `AnyNetModel` is a network with receives from any source. The theorems hold for
  every mesh that satisfies `mesh_ok` and are instantiated for lines, triangles, tetrahedra, quadrilaterals, hexahedra and
  standalone hypercubes.
- *Leaf neighbours at a face* (`LfnModel`): t8_forest_leaf_face_neighbors_ext and t8_forest_iterate_faces, with the search among local leaves and
  ghosts. Not modelled: the orientation that is returned as well and the memory of the result arrays. `LfnSpec` says when two elements
  share a subface, by their descendants of the maximum level.

- Balance (`ForestBalanceModel.v`, C33, C45): t8_forest_balance_adapt with t8_forest_element_half_face_neighbors and
  t8_forest_element_has_leaf_desc, t8_forest_balance with its rounds (the reduction of done, repartition as any redistribution of the
  leaves, the ghost creation of each round as in C42), t8_forest_is_balanced, and the maximum level of the existing leaves. Every rank
  runs the same number of rounds, because each round ends with collective operations. Not modelled: the profile, set_from and
  refcounts of the intermediate forests (C39), the partition of the coarse mesh.

Not modelled anywhere: MPI error codes, memory allocation failure, profiling, logging, VTK output, the geometries (except the
element coordinates), and the code of p4est (the default quadrilateral and hexahedron classes call it; see its contract above).

- All classes at once (`ClassSpec.v`, `PropertiesClasses.v`, C01-C08): the statements of the element interface for every class of the
  two schemes, including the vertices of the default scheme (`VertexModel.v`). `ClassSpec` defines the elements of a tree as what the root
  can be refined into, and the list of classes; the statements mention only functions of the interface.

## Trusted base

Coq's kernel (and `vm_compute`, which the kernel uses), and the reading of the source recorded in the comments of the model
files. `Print Assumptions` of every theorem is printed by the build. All theorems are closed under the global context, except
those about double arithmetic in `PropertiesBalance.v` (C22, C25) and `PropertiesJoin.v` (`C51_coordinates_suffice`, `C51_bounds`), which use the axioms of the standard library's real numbers:
`ClassicalDedekindReals.sig_not_dec`, `ClassicalDedekindReals.sig_forall_dec`,
`FunctionalExtensionality.functional_extensionality_dep` and `Classical_Prop.classic`. The refutations there are axiom-free.
coqchk also lists seven constants of `Coq.ssr.ssrunder`, a file of the standard library; no theorem depends on them.

## Findings

Places where the faithful model violates what a user would expect. Each is proved by the theorem named.

- F1 `C18_adapt_recursive_refuted`: recursive refinement (t8_forest_adapt.cxx:329-378) removes the element from its work list and
  neither refines nor keeps it if the callback returns 1 for an element of the maximum level; the element disappears from the
  forest while `incomplete_trees` stays 0.
- F2 `C08_*_refuted`: the family tests of triangles and tetrahedra accept some lists that are not families; they are exact on
  consecutive elements.
- F3 `C03_*_refuted`: `t8_dtri_predecessor` / `t8_dtet_predecessor` return wrong elements.
- F4 `C30_empty_array_refuted`: the searches in leaf arrays read index 0 of an empty array.
- F5 `C21_empty_tree_refuted`: partitioning a forest in which a tree has no elements left (all of them were removed) loses the
  tree at the end of a rank's range, so the local tree array no longer matches the range of tree ids.
- F6 `C22_balanced_refuted`: the balanced offsets are floor (N * i / P) in double arithmetic; when N * P exceeds 2^53 some ranks
  get one element more or less than N / P rounded up or down (e.g. N = 1808158380452501 = 7 * 258308340064643 on 7 ranks).
- F7 `C25_weighted_refuted`: the weighted offsets compare sums that were rounded in different orders. With one element of weight
  0.7 on each of three ranks, rank 0 writes behind the end of its vector of offsets; with one element of weight 0.1 on each of
  four ranks the final assertion fails. With all sums exact (fixed point weights) the computation is right (C25_weighted_partial).
- F8 `C29_reads_inside_refuted`: t8_forest_element_find_owner_ext reads global_first_desc[mpisize], one past the end, whenever the
  owner is the last rank with leaves (t8_forest.cxx:2414). The value is not used, so the answer is right whatever is stored there.
- F9 `C41_incomplete_refuted`: for forests with incomplete trees t8_forest_tree_shared compares with the last tree of the rank
  directly below. If that rank is empty a shared tree goes unnoticed and the table of tree offsets denies the tree to the ranks below.
- F10 `C15_tetrahedron_count_leaves_refuted`: the number of leaves of level 21 of a tetrahedron, 8^21 = 2^63, does not fit the signed
  64 bit type of the result; count_leaves_from_root(21) returns -2^63 although 21 is an admissible level.
- F11 `C40_empty_process_refuted`: on a process without elements, t8_cmesh_uniform_bounds_from_unpartioned looks for the next process with
  elements but skips the last but one process; the first tree it returns can be too large. The tree table built from these values
  comes out right all the same (C40_tree_table).
- F12 `C38_prism_edge_neighbors_refuted`: the table of the edge that leaves a face at a face corner is wrong for prisms: no entry is an
  edge that touches its corner. `C38_line_edge_refuted`: the edge of a line is listed as corner 0 twice (the second initialiser is missing).
- F13 `C31_empty_tree_refuted`: the search of a forest with a local tree without leaves reads the first leaf of an empty array.
- F14 `C37_many_trees_refuted`: partition for coarsening stores the number of the first local tree in a 32 bit integer
  (t8_forest_pfc_helper.cxx:120); on a rank whose first tree has a number of 2^31 or more the class of the tree is not found.
- F15 `C16_pack_size_overflow_refuted`: element_MPI_Pack_size returns the size as an int; for messages of 2^31 bytes or more (from
  153391690 tetrahedra on) the returned size is negative.
- F16 `C39_second_source_refuted`: passing a source forest to two of t8_forest_set_adapt, _partition and _balance replaces the first
  source without releasing the reference taken over. `C39_second_partition_scheme_refuted`: the same for the scheme of
  t8_cmesh_set_partition_uniform. t8_cmesh_set_derive releases the earlier source correctly.
- F17 `C39_search_update_refuted`: t8_search_base::update_forest releases its forest before it references the new one; with the forest it
  alone holds (as returned by the search) the forest is destroyed and then used.
- F18 `C42_versions_refuted`: the versions 1 and 2 of the ghost creation (t8_forest_set_ghost_ext) never add a remote element, because the
  loop of t8_forest_ghost_fill_remote does nothing for ghost_method 1 and for ghost_method 0 only handles elements of the maximum level;
  every process ends up without ghosts. `C42_balanced_boundary_refuted`: the version 1 also allocates elements of an invalid class at
  the boundary of the domain. The version 3, which is the default, is right (C42_ghost_layer).
- F19 `C34_once_refuted`: t8_forest_leaf_face_neighbors_ext (t8_forest.cxx:1850-1978) keeps the neighbours found among the local leaves in its
  callback data when it goes on to search the ghosts, and appends all of them again. At a face with local and ghost neighbours each local
  neighbour is returned twice (`C34_both_kinds`: always). The set of neighbours is right.
- F20 `C45_unset_level_refuted`: t8_forest_is_balanced calls the callback of balance, which relies on maxlevel_existing to skip leaves of
  the maximum level. It is set only inside t8_forest_balance; otherwise it is -1. In a forest with a leaf of the maximum level, called by
  the user, the check asks for children of that leaf and aborts, although the forest is balanced.
- F21 `C33_earlier_ghosts_refuted`: t8_forest_balance creates ghosts only if the forest has none. A forest whose ghosts were created with
  version 2 has an empty ghost layer (F18); balance then ends after one round with a forest that is not balanced.
- F22 `C08_prism_arbitrary_list_refuted`: t8_dprism_is_familypv compares triangles and lines of the eight elements only in part and accepts
  lists that are not families; on consecutive elements of a tree it is exact.
- F23 `C15_prism_count_leaves_refuted`: as F10, 8^21 = 2^63 leaves of level 21 of a prism do not fit the signed 64 bit result.
- F24 `C46_prism_anchor_refuted`: t8_default_prism.cxx:390-397 divides the coordinates by the length of the root before it multiplies, in
  integers, so that the anchor of every prism is the origin.
- F25 `C08_pyramid_arbitrary_list_refuted`: t8_dpyramid_is_family does not ask that the first element is the first child of its parent and
  accepts ten elements of ten different families that have the right types and offsets; on consecutive leaves it is exact.
- F26 `C15_pyramid_count_leaves_refuted`: a pyramid has 2 * 8^21 - 6^21 leaves of level 21, which does not fit the signed 64 bit result; the
  count is -6^21.
- F27 `C05_pyramid_corner_descendant_refuted`: t8_dpyramid_corner_descendant does not write its output for corners 1 and 2 of a tetrahedron
  if the requested level is the level of the tetrahedron (the loop at t8_dpyramid_bits.c:954-960 has no iterations). The first and the last
  descendant of a tetrahedron at a face, requested at its own level, are then uninitialised for the faces 0 and 3.
  `C12_pyramid_descendants_at_face_refuted` has the witness; below the level of the element the descendants at a face are right
  (`C12_pyramid_descendants_at_face`).
- F28 `C46_pyramid_anchor_refuted`: the anchor of a pyramid that points down (type 7) is its tip, which is vertex number 4; the interface
  documents the anchor as the first of all vertices (index 0). It still is the vertex with the lowest coordinates.
- F29 `C01_standalone_vertex_shift_refuted`: in the standalone scheme vertices have 254 levels and element_get_len shifts an int by
  254 - level (t8_standalone_implementation.hxx:1691); for levels below 223 the shift count is too large, which is undefined. The value is
  not used, because vertices have no coordinates, but parent and child of a vertex compute it.
- F30 `C15_hexahedron_count_leaves_refuted`: as F10, 8^21 = 2^63 leaves of level 21 of a standalone hexahedron do not fit the signed result.
- F31 `C12_standalone_root_parent_face_refuted`: element_face_get_parent_face of the standalone scheme returns -1 for the root; its own comment
  and t8_scheme.hxx:639 say that it returns the face. The default scheme does (`C12_default_root_parent_face`).
- F32 `C14_quad_distinct_output_refuted`: element_transform_face of the default quadrilaterals (t8_default_quad.cxx:413-488) copies the
  exchanged coordinates but not the level to the output if sign is set and the output is another element than the input; t8_scheme.hxx:690-711
  allows both ("may be the same"). The caller in t8_forest.cxx uses one element for both, so meshes are not affected.
- F33 `C08_tetrahedron_last_type_refuted`: t8_dtet_is_familypv (t8_dtet_bits.c:36) tests the types of the elements 1 to 6 only, so the first
  seven children of a tetrahedron and the last child of another tetrahedron in the same cube are a family. Pyramids and triangles test all types.
- F34 `C48_last_tree_without_attribute_refuted`, `C48_commit_in_bounds_refuted`, `C48_ghost_without_attribute_refuted`: t8_cmesh_trees_add_attribute
  (t8_cmesh_trees.cxx:717-757) writes the offset of the next attribute unless the tree is the last one. If the last attribute belongs to another
  tree, because the last tree has none, this goes to the bytes 8 to 15 of the attribute data, or past the memory if there are fewer. Likewise for
  ghosts, unless all of them have attributes (760-800).
- F35 `C49_copy_finds_ghosts_refuted`: t8_cmesh_copy does not fill the table from global to local numbers of the ghosts, so t8_cmesh_get_local_id
  returns -1 for the ghosts of a copy of a partitioned mesh.
- F36 `C50_commit_finds_missing_vertices_refuted`: the check of the commit of a vertex to tree list (contains_all_vertices) only counts the entries of
  every tree. A list in which a vertex of a tree is missing and another one is contained twice is accepted, and the global vertices
  constructed from it depend on the order of the hash map.
- F37 `C50_vertices_of_some_trees_refuted`: if t8_cmesh_set_global_vertices_of_tree is called for some trees only, the commit of the mesh uses the
  null pointer of the missing attribute of the others (an assertion in debugging mode).
- F38 `C40_owner_of_element_refuted`, `C40_bounds_partitioned_refuted`: t8_cmesh_determine_partition computes the process of an element with long
  doubles. For element 40 of 82 on two processes it returns process 1 instead of 0. In a debug build an assertion fails; in a release build
  the bounds of a coarse mesh of 82 trees are wrong, or a process waits for ever for a message that is never sent. The rounding can only
  matter at element g if the number of elements divides P * (g + 1) (`C40_owner_of_inner_element`); so the bounds are right on every process if
  the numbers of elements of all trees have a common divisor greater than the number of processes (`C40_bounds_partitioned_fine`).
- F39 `C40_empty_partitioned_refuted` (1): a process without elements whose place is in a tree of its own sends the message to itself, and
  its last tree stays -1 instead of first - 1. The number of trees in the new coarse mesh, last - first + 1, is then negative.
- F40 `C40_empty_partitioned_refuted` (2): the number of the first tree sent to processes without elements does not count the shared first tree of
  the sender, so it is one too small.
- F41 `C51_tolerance_refuted`: t8_cmesh_set_join_by_vertices compares only faces with the same hash, and the hash rounds every coordinate to a bin.
  Two faces whose corners are equal up to the tolerance are not joined if a rounding difference puts a coordinate into the next bin: with
  coordinates in [0,1], 0.4999999995 and the double before it are in different bins.
- F42 `C51_bins_refuted`: the minimum of the coordinates is taken over the first two coordinates for two-dimensional trees (the first for
  lines), but the hash uses all three. For trees in the plane z = -1 with x and y in [0,1] the scaled coordinate is -1e9, and its conversion to
  unsigned long is undefined.
