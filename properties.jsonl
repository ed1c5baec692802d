{"id": "C01", "title": "Refinement and coarsening are inverse", "statement": "For every refinable element E and every child index i, element_get_parent(element_get_child(E,i)) equals E, element_get_child_id of that child is i and its level is level(E)+1; conversely every element of positive level is the child_id-th child of its parent.", "quantifier": "all valid elements of every level, all shapes of the default scheme, all child indices", "why_tests_cant": "there are up to 2^62 distinct elements per shape; tests sample a few levels", "anchors": ["src/t8_schemes/t8_default/t8_default_line/t8_dline_bits.c: t8_dline_child, t8_dline_parent, t8_dline_child_id", "src/t8_schemes/t8_default/t8_default_tri/t8_dtri_bits.c: t8_dtri_child, t8_dtri_parent, t8_dtri_child_id", "src/t8_schemes/t8_default/t8_default_pyramid/t8_dpyramid_bits.c", "src/t8_schemes/t8_default/t8_default_prism/t8_dprism_bits.c", "src/t8_schemes/t8_standalone/t8_standalone_implementation.hxx: element_get_child, element_get_parent, element_get_child_id", "src/t8_schemes/t8_default/t8_default_quad/t8_default_quad.cxx: element_get_child", "src/t8_schemes/t8_default/t8_default_hex/t8_default_hex.cxx: element_get_child"]}
{"id": "C02", "title": "Linear ids enumerate the elements of a level exactly once", "statement": "At each level L, element_set_linear_id and element_get_linear_id are mutually inverse bijections between the elements of level L of a tree and the integers 0..count_leaves_from_root(L)-1.", "quantifier": "all levels up to the maximum level, all ids, all elements", "why_tests_cant": "the id range is astronomically large; tests only iterate small levels", "anchors": ["src/t8_schemes/t8_default/t8_default_line/t8_dline_bits.c: t8_dline_init_linear_id, t8_dline_linear_id", "src/t8_schemes/t8_default/t8_default_tri/t8_dtri_bits.c: t8_dtri_init_linear_id, t8_dtri_linear_id", "src/t8_schemes/t8_default/t8_default_common/t8_default_common.hxx: count_leaves_from_root", "src/t8_schemes/t8_standalone/t8_standalone_implementation.hxx: element_set_linear_id, element_get_linear_id"]}
{"id": "C03", "title": "Successor steps through a level in order", "statement": "element_construct_successor of a level-L element with linear id k (not the last one) is the level-L element with linear id k+1.", "quantifier": "all levels, all elements except the last of the level", "why_tests_cant": "unbounded carry chains through the refinement levels must all be right", "anchors": ["src/t8_schemes/t8_default/t8_default_line/t8_dline_bits.c: t8_dline_successor", "src/t8_schemes/t8_default/t8_default_tri/t8_dtri_bits.c: t8_dtri_successor, t8_dtri_succ_pred_recursion", "src/t8_schemes/t8_standalone/t8_standalone_implementation.hxx: element_construct_successor"]}
{"id": "C04", "title": "element_compare is the depth-first order", "statement": "element_compare is a total order on the elements of a tree: antisymmetric, transitive, zero exactly on equal elements; an ancestor precedes its descendants and disjoint elements are ordered by their linear ids at any common level.", "quantifier": "all pairs and triples of elements of arbitrary levels", "why_tests_cant": "quadratically/cubically many pairs over astronomically many elements", "anchors": ["src/t8_schemes/t8_default/t8_default_line/t8_dline_bits.c: t8_dline_compare", "src/t8_schemes/t8_default/t8_default_tri/t8_dtri_bits.c: t8_dtri_compare", "src/t8_schemes/t8_default/t8_default_pyramid/t8_dpyramid_bits.c: t8_dpyramid_compare", "src/t8_schemes/t8_standalone/t8_standalone_implementation.hxx: element_compare, element_is_equal"]}
{"id": "C05", "title": "First and last descendants bound the descendants", "statement": "For every element E and level L >= level(E) the ids at level L of the descendants of E are exactly the integers between the id of element_get_first_descendant(E,L) and that of element_get_last_descendant(E,L), and both are descendants of E.", "quantifier": "all elements, all target levels", "why_tests_cant": "range over all level pairs and elements", "anchors": ["src/t8_schemes/t8_default/t8_default_line/t8_dline_bits.c: t8_dline_first_descendant, t8_dline_last_descendant", "src/t8_schemes/t8_default/t8_default_tri/t8_dtri_bits.c: t8_dtri_first_descendant, t8_dtri_last_descendant", "src/t8_schemes/t8_standalone/t8_standalone_implementation.hxx: element_get_first_descendant, element_get_last_descendant"]}
{"id": "C06", "title": "Nearest common ancestor is the deepest common ancestor", "statement": "element_get_nca(A,B) is an ancestor of both A and B and every common ancestor of A and B is an ancestor of it.", "quantifier": "all pairs of elements of a tree", "why_tests_cant": "all pairs of elements", "anchors": ["src/t8_schemes/t8_default/t8_default_line/t8_dline_bits.c: t8_dline_nearest_common_ancestor", "src/t8_schemes/t8_default/t8_default_tri/t8_dtri_bits.c: t8_dtri_nearest_common_ancestor", "src/t8_schemes/t8_standalone/t8_standalone_implementation.hxx: element_get_nca"]}
{"id": "C07", "title": "Ancestor test agrees with the ancestor relation", "statement": "element_is_ancestor(A,B) is true exactly when B can be obtained from A by repeated refinement (including A=B).", "quantifier": "all pairs of valid elements", "why_tests_cant": "all pairs of elements", "anchors": ["src/t8_schemes/t8_default/t8_default_common/t8_default_common.hxx: element_is_ancestor", "src/t8_schemes/t8_standalone/t8_standalone_implementation.hxx: element_is_ancestor, element_get_ancestor_id"]}
{"id": "C08", "title": "Family test recognises exactly the families", "statement": "elements_are_family(F) returns true if and only if F is, in order, the list of all children of one element.", "quantifier": "all arrays of valid elements of the right length", "why_tests_cant": "the space of element tuples is enormous and tests only try true families and a few perturbations", "anchors": ["src/t8_schemes/t8_default/t8_default_line/t8_dline_bits.c: t8_dline_is_familypv", "src/t8_schemes/t8_default/t8_default_tri/t8_dtri_bits.c: t8_dtri_is_familypv", "src/t8_schemes/t8_default/t8_default_tet/t8_dtet_bits.c: t8_dtet_is_familypv", "src/t8_schemes/t8_default/t8_default_prism/t8_dprism_bits.c: t8_dprism_is_familypv", "src/t8_schemes/t8_default/t8_default_pyramid/t8_dpyramid_bits.c: t8_dpyramid_is_family", "src/t8_schemes/t8_standalone/t8_standalone_implementation.hxx: elements_are_family"]}
{"id": "C09", "title": "Children tile their parent", "statement": "Geometrically, the children of an element have pairwise disjoint interiors and their union is the parent: every point belongs to exactly one child iff it belongs to the parent.", "quantifier": "all refinable elements, all points", "why_tests_cant": "infinitely many points", "anchors": ["src/t8_schemes/t8_default/t8_default_tri/t8_dtri_bits.c: t8_dtri_child, t8_dtri_compute_integer_coords", "src/t8_schemes/t8_default/t8_default_line/t8_dline_bits.c: t8_dline_child", "src/t8_schemes/t8_standalone/t8_standalone_implementation.hxx: element_get_child, element_get_vertex_reference_coords", "src/t8_schemes/t8_default/t8_default_quad/t8_default_quad.cxx: element_get_vertex_integer_coords", "src/t8_schemes/t8_default/t8_default_hex/t8_default_hex.cxx: element_get_vertex_integer_coords"]}
{"id": "C10", "title": "Face neighbours share the face and the relation is symmetric", "statement": "If N is the neighbour of E across face f with dual face g, then the face f of E and the face g of N have the same vertices, and the neighbour of N across g is E with dual face f.", "quantifier": "all elements (also those outside the root), all faces", "why_tests_cant": "all elements and faces", "anchors": ["src/t8_schemes/t8_default/t8_default_line/t8_dline_bits.c: t8_dline_face_neighbour", "src/t8_schemes/t8_default/t8_default_tri/t8_dtri_bits.c: t8_dtri_face_neighbour", "src/t8_schemes/t8_default/t8_default_pyramid/t8_dpyramid_bits.c: t8_dpyramid_face_neighbour", "src/t8_schemes/t8_standalone/t8_standalone_implementation.hxx: element_get_face_neighbor_inside, element_get_face_corner, element_get_corner_face", "src/t8_schemes/t8_default/t8_default_quad/t8_default_quad.cxx: element_get_face_neighbor_inside", "src/t8_schemes/t8_default/t8_default_hex/t8_default_hex.cxx: element_get_face_neighbor_inside"]}
{"id": "C11", "title": "Inside-root test and root boundary test are exact", "statement": "element_get_face_neighbor_inside returns 'inside' exactly when the neighbour is a descendant of the root, and element_is_root_boundary(E,f) holds exactly when the neighbour across f lies outside the root.", "quantifier": "all elements and faces", "why_tests_cant": "all elements and faces", "anchors": ["src/t8_schemes/t8_default/t8_default_tri/t8_dtri_bits.c: t8_dtri_is_inside_root, t8_dtri_is_root_boundary", "src/t8_schemes/t8_default/t8_default_line/t8_dline_bits.c: t8_dline_is_inside_root", "src/t8_schemes/t8_standalone/t8_standalone_implementation.hxx: element_is_root_boundary, element_get_tree_face", "src/t8_schemes/t8_default/t8_default_quad/t8_default_quad.cxx: element_is_root_boundary", "src/t8_schemes/t8_default/t8_default_hex/t8_default_hex.cxx: element_is_root_boundary"]}
{"id": "C12", "title": "Children at a face are exactly the touching children", "statement": "element_get_children_at_face lists in increasing order exactly those children that have a subface of the given parent face, and element_face_get_child_face / element_face_get_parent_face translate face numbers accordingly (the child face is contained in the parent face, and mapping back returns the parent face).", "quantifier": "all elements, faces and face children", "why_tests_cant": "all elements and faces", "anchors": ["src/t8_schemes/t8_default/t8_default_tri/t8_dtri_bits.c: t8_dtri_children_at_face, t8_dtri_face_child_face, t8_dtri_face_parent_face", "src/t8_schemes/t8_standalone/t8_standalone_implementation.hxx: element_get_children_at_face, element_face_get_child_face, element_face_get_parent_face", "src/t8_schemes/t8_default/t8_default_quad/t8_default_quad.cxx: element_get_children_at_face", "src/t8_schemes/t8_default/t8_default_hex/t8_default_hex.cxx: element_get_children_at_face"]}
{"id": "C13", "title": "Boundary/extrude round trip", "statement": "Extruding a face element to a root face and taking the boundary element again returns the face element, and vice versa.", "quantifier": "all face elements, all root faces", "why_tests_cant": "all elements and faces", "anchors": ["src/t8_schemes/t8_default/t8_default_tri/t8_default_tri.cxx: element_extrude_face, element_construct_boundary_face", "src/t8_schemes/t8_default/t8_default_tet/t8_default_tet.cxx: element_extrude_face, element_construct_boundary_face", "src/t8_schemes/t8_standalone/t8_standalone_implementation.hxx: element_extrude_face, element_get_boundary_face", "src/t8_schemes/t8_default/t8_default_quad/t8_default_quad.cxx: element_extrude_face", "src/t8_schemes/t8_default/t8_default_hex/t8_default_hex.cxx: element_extrude_face", "src/t8_schemes/t8_default/t8_default_prism/t8_dprism_bits.c: t8_dprism_boundary_face, t8_dprism_extrude_face"]}
{"id": "C14", "title": "Face transformation between trees is invertible", "statement": "element_transform_face maps the face elements of one tree's face bijectively onto those of the neighbouring tree, preserves levels and refinement, and the transformation with the roles of the trees exchanged is its inverse.", "quantifier": "all face elements, orientations and signs", "why_tests_cant": "all elements x orientations x signs", "anchors": ["src/t8_schemes/t8_default/t8_default_line/t8_dline_bits.c: t8_dline_transform_face", "src/t8_schemes/t8_default/t8_default_tri/t8_dtri_bits.c: t8_dtri_transform_face", "src/t8_schemes/t8_standalone/t8_standalone_implementation.hxx: element_transform_face", "src/t8_schemes/t8_default/t8_default_quad/t8_default_quad.cxx: element_transform_face"]}
{"id": "C15", "title": "Leaf counting formula", "statement": "element_count_leaves(E,L) and count_leaves_from_root(L) equal the number of level-L descendants of E resp. of the root.", "quantifier": "all elements and levels", "why_tests_cant": "counts are exponential in the level", "anchors": ["src/t8_schemes/t8_default/t8_default_common/t8_default_common.hxx: element_count_leaves, count_leaves_from_root", "src/t8_schemes/t8_standalone/t8_standalone_implementation.hxx: element_count_leaves, count_leaves_from_root"]}
{"id": "C16", "title": "Element serialisation round trip", "statement": "Packing any sequence of elements into a message buffer and unpacking it yields the same sequence and consumes exactly the packed bytes.", "quantifier": "all sequences of elements", "why_tests_cant": "all sequences", "anchors": ["src/t8_schemes/t8_default/t8_default_tri/t8_dtri_bits.c: t8_dtri_element_pack, t8_dtri_element_unpack"]}
{"id": "C17", "title": "Uniform forest covers every tree exactly once", "statement": "After t8_forest_new_uniform at level L the concatenation over all ranks of the local elements of each tree is exactly the sequence of all level-L elements of the tree in linear-id order, for every number of ranks and trees.", "quantifier": "all numbers of trees, ranks and levels", "why_tests_cant": "parametric in ranks/trees/levels; tests run with few ranks", "anchors": ["src/t8_forest/t8_forest.cxx: t8_forest_populate", "src/t8_cmesh/t8_cmesh.cxx: t8_cmesh_uniform_bounds_equal_element_count"]}
{"id": "C18", "title": "Adaptation preserves the domain", "statement": "One adaptation step replaces elements only by their descendants or complete families by their parent: the new leaf sequence of each tree is sorted, non-overlapping and covers exactly the same region as the old one (when no removal is requested; in a tree with holes an incomplete family may be replaced by its whole parent, so that at least the old region is covered). In recursive mode the callback must not ask to refine an element of the maximum level: the code drops such an element (see Findings in DESIGN.md).", "quantifier": "all leaf sequences, all callbacks, recursive or not", "why_tests_cant": "arbitrary user callbacks and meshes", "anchors": ["src/t8_forest/t8_forest_adapt.cxx: t8_forest_adapt, t8_forest_adapt_refine_recursive, t8_forest_adapt_coarsen_recursive"]}
{"id": "C19", "title": "Adaptation obeys the callback", "statement": "In non-recursive mode the result is exactly what the callback prescribed: each old element is shown exactly once in order (as first member of a family or alone), 1 refines it (if below the maximum level), -1 coarsens the family shown, -2 removes, 0 keeps.", "quantifier": "all meshes and callbacks", "why_tests_cant": "arbitrary callbacks", "anchors": ["src/t8_forest/t8_forest_adapt.cxx: t8_forest_adapt"]}
{"id": "C20", "title": "Levels never exceed the maximum level", "statement": "No operation (adapt, recursive adapt, balance, uniform) produces an element with level above t8_forest_get_maxlevel or below 0.", "quantifier": "all meshes and callbacks", "why_tests_cant": "arbitrary callbacks and histories", "anchors": ["src/t8_forest/t8_forest_adapt.cxx", "src/t8_forest/t8_forest.cxx: t8_forest_compute_maxlevel"]}
{"id": "C21", "title": "Partition preserves the global element sequence", "statement": "Partitioning only moves elements: the concatenation over ranks of (tree, element) sequences is the same before and after.", "quantifier": "all meshes, numbers of ranks, old and new partitions, message orders", "why_tests_cant": "all partitions x schedules", "anchors": ["src/t8_forest/t8_forest_partition.cxx: t8_forest_partition, t8_forest_partition_given, t8_forest_partition_sendloop, t8_forest_partition_recvloop"]}
{"id": "C22", "title": "Partition is balanced", "statement": "After an unweighted partition of N elements on P ranks the offsets are monotone from 0 to N and each rank holds floor(N/P) or ceil(N/P) elements.", "quantifier": "all N and P", "why_tests_cant": "all N up to 2^63 and all P; floating point rounding is involved", "anchors": ["src/t8_forest/t8_forest_partition.cxx: t8_forest_partition_compute_new_offset"]}
{"id": "C23", "title": "Partition send and receive ranges match", "statement": "Rank p sends a (possibly empty-checked) message to q exactly if q waits for a message from p, so that no message is lost and no rank waits forever.", "quantifier": "all pairs of ranks and all pairs of partitions", "why_tests_cant": "all pairs of partitions, deadlock-freedom over schedules", "anchors": ["src/t8_forest/t8_forest_partition.cxx: t8_forest_partition_sendrange, t8_forest_partition_recvrange"]}
{"id": "C24", "title": "Data partition follows the elements", "statement": "t8_forest_partition_data moves the data items exactly as the elements move: item k of the global sequence stays attached to global element k.", "quantifier": "all data arrays and partitions", "why_tests_cant": "all partitions", "anchors": ["src/t8_forest/t8_forest_partition.cxx: t8_forest_partition_data"]}
{"id": "C25", "title": "Weighted partition is monotone and complete", "statement": "Weighted partition offsets are monotone, start at 0, end at N, and the split points respect the weights.", "quantifier": "all weight functions, meshes and rank counts", "why_tests_cant": "arbitrary weights", "anchors": ["src/t8_forest/t8_forest_partition.cxx: t8_forest_partition_compute_new_offset"]}
{"id": "C26", "title": "Owner of a tree/element by offset search", "statement": "The binary searches over the partition table terminate and return a rank that owns the queried tree (resp. element), for every valid partition table including empty ranks and shared trees.", "quantifier": "all valid partition tables and queries", "why_tests_cant": "all tables, termination", "anchors": ["src/t8_cmesh/t8_cmesh_internal/t8_cmesh_offset.c: t8_offset_any_owner_of_tree_ext, t8_offset_first_owner_of_tree, t8_offset_last_owner_of_tree", "src/t8_forest/t8_forest_partition.cxx: t8_forest_partition_owner_of_element"]}
{"id": "C27", "title": "Owner lists are complete", "statement": "t8_offset_all_owners_of_tree returns exactly the ranks that own the tree, in increasing order.", "quantifier": "all valid partition tables and trees", "why_tests_cant": "all tables", "anchors": ["src/t8_cmesh/t8_cmesh_internal/t8_cmesh_offset.c: t8_offset_all_owners_of_tree, t8_offset_next_owner_of_tree, t8_offset_prev_owner_of_tree"]}
{"id": "C28", "title": "Coarse mesh partition: every tree is sent exactly once", "statement": "When repartitioning the coarse mesh, for each tree of each rank's new range exactly one rank sends it, and a rank sends to another exactly if it has some tree to send.", "quantifier": "all pairs of valid partition tables, all trees and ranks", "why_tests_cant": "all pairs of tables", "anchors": ["src/t8_cmesh/t8_cmesh_internal/t8_cmesh_offset.c: t8_offset_sendstree, t8_offset_sendsto, t8_offset_range_send"]}
{"id": "C29", "title": "Element owner search", "statement": "t8_forest_element_find_owner terminates and returns the unique rank owning the first descendant of the element, for every distribution of the elements including empty ranks; it never reads outside the partition tables.", "quantifier": "all forests, elements, rank counts", "why_tests_cant": "all distributions, termination, memory safety", "anchors": ["src/t8_forest/t8_forest.cxx: t8_forest_element_find_owner_ext, t8_forest_element_check_owner"]}
{"id": "C30", "title": "Sorted search in a leaf array", "statement": "t8_forest_bin_search_lower/upper return the largest (smallest) index whose id is <= (>=) the query, -1 if none; bin_search_first_descendant_ancestor finds the first leaf that is an ancestor or descendant of the query element iff one exists.", "quantifier": "all sorted leaf arrays and queries", "why_tests_cant": "all arrays", "anchors": ["src/t8_forest/t8_forest_private.cxx"]}
{"id": "C31", "title": "Top-down search visits the right elements", "statement": "t8_forest_search calls the callback on an element iff all its ancestors below the start returned true; each leaf under accepted ancestors is reported exactly once, in order, with its correct index, and each query stays active exactly along accepted ancestors.", "quantifier": "all leaf arrays, callbacks, queries", "why_tests_cant": "arbitrary callbacks/meshes", "anchors": ["src/t8_forest/t8_forest_iterate.cxx: t8_forest_search, t8_forest_search_recursion, t8_forest_split_array"]}
{"id": "C32", "title": "iterate_replace reports the exact old/new correspondence", "statement": "t8_forest_iterate_replace between a forest and its one-step adaptation reports each old and each new element exactly once, and each report relates an element with its children, a family with its parent, equal elements, or a removed element.", "quantifier": "all meshes and callbacks", "why_tests_cant": "arbitrary adaptations", "anchors": ["src/t8_forest/t8_forest_iterate.cxx: t8_forest_iterate_replace"]}
{"id": "C33", "title": "Balance terminates with a 2:1 balanced refinement", "statement": "t8_forest_balance terminates; the result is a refinement of the input in which no leaf has a face neighbour leaf more than one level finer, no level above the input's maximum is created, and it is the coarsest such refinement.", "quantifier": "all meshes", "why_tests_cant": "arbitrary meshes, termination", "anchors": ["src/t8_forest/t8_forest_balance.cxx"]}
{"id": "C34", "title": "Leaf face neighbours are complete and duplicate free", "statement": "t8_forest_leaf_face_neighbors returns each leaf (local or ghost) that shares a subface with the given face exactly once.", "quantifier": "all meshes, partitions and leaves", "why_tests_cant": "all meshes and partitions", "anchors": ["src/t8_forest/t8_forest.cxx: t8_forest_leaf_face_neighbors_ext, t8_forest_leaf_face_neighbors_iterate"]}
{"id": "C35", "title": "Leaf access by local index", "statement": "t8_forest_get_leaf_element(i) returns the i-th local element in tree order together with its tree, for all 0 <= i < number of local elements.", "quantifier": "all forests and indices", "why_tests_cant": "all sizes", "anchors": ["src/t8_forest/t8_forest.cxx: t8_forest_get_leaf_element, t8_forest_compute_elements_offset"]}
{"id": "C36", "title": "Ghost layer is symmetric", "statement": "If rank p has a ghost element of rank q, then q lists that element among the remotes of p; ghost data exchange delivers to each ghost the data of its owner.", "quantifier": "all meshes and partitions", "why_tests_cant": "all meshes and partitions", "anchors": ["src/t8_forest/t8_forest_ghost.cxx"]}
{"id": "C37", "title": "Partition for coarsening never splits a family", "statement": "With set_for_coarsening, after partition no complete family is distributed over two ranks.", "quantifier": "all meshes and rank counts", "why_tests_cant": "all meshes", "anchors": ["src/t8_forest/t8_forest_pfc_helper.cxx", "src/t8_forest/t8_forest_partition_for_coarsening.cxx"]}
{"id": "C38", "title": "Element class tables are consistent", "statement": "The combinatorial tables (faces, vertices, dimensions, face types, orientation) of the eight element classes satisfy the relations that algorithms rely on.", "quantifier": "all classes, faces, vertices", "why_tests_cant": "completeness over the finite tables with cross relations", "anchors": ["src/t8_eclass/t8_eclass.c"]}
{"id": "C39", "title": "Reference counting frees exactly once", "statement": "For each sequence of ref/unref operations that the ownership protocol allows, an object is destroyed exactly when the last reference is dropped and never used afterwards.", "quantifier": "all operation histories", "why_tests_cant": "all histories", "anchors": ["src/t8_helper_functions/t8_refcount.c", "src/t8_forest/t8_forest.cxx: t8_forest_ref, t8_forest_unref"]}
{"id": "C40", "title": "Uniform partition bounds are consistent across ranks", "statement": "The element ranges computed independently by each rank for the uniform partition are contiguous: the last child of rank p plus one is the first child of rank p+1, the first starts at 0 and the last ends at the total. The first and last tree computed for a rank, and the numbers of its first and last element in them, are those of its elements, on a replicated and on a partitioned coarse mesh; on a partitioned coarse mesh every rank is sent exactly the messages it waits for.", "quantifier": "all element counts per tree, rank counts and partitions of the coarse mesh", "why_tests_cant": "all N, P", "anchors": ["src/t8_cmesh/t8_cmesh.cxx: t8_cmesh_uniform_bounds_equal_element_count, t8_cmesh_get_first_element_of_process, t8_cmesh_uniform_bounds_from_partition, t8_cmesh_determine_partition", "src/t8_helper_functions/t8_vector_algorithms.hxx: vector_split"]}
{"id": "C41", "title": "Tree offset table of a forest", "statement": "After every commit the shared table of tree offsets is a valid partition table in which rank p owns tree t exactly if rank p stores a leaf of t, and the table of first descendants holds for each rank with leaves the id of the first descendant of its first leaf.", "quantifier": "all complete forests, all distributions including ranks without leaves, all rank counts", "why_tests_cant": "all distributions and rank counts", "anchors": ["src/t8_forest/t8_forest_partition.cxx: t8_forest_partition_create_tree_offsets, t8_forest_partition_create_first_desc", "src/t8_forest/t8_forest.cxx: t8_forest_tree_shared"]}
{"id": "C42", "title": "The ghost layer is complete and exact", "statement": "After a forest with face ghosts is committed, the ghosts of a process are exactly the leaves of other processes that share a part of a face with one of its leaves, each once, grouped by tree and in the order of the forest; the creation never hangs, whatever the order in which messages arrive.", "quantifier": "all meshes whose trees are connected at their faces, all adaptive forests on them, all distributions including processes without leaves, all message orders", "why_tests_cant": "all refinements, partitions and message orders; the owners at a face are found by a recursion that skips whole subtrees", "anchors": ["src/t8_forest/t8_forest_ghost.cxx: t8_forest_ghost_create_topdown, t8_forest_ghost_create, t8_forest_ghost_create_balanced_only", "src/t8_forest/t8_forest.cxx: t8_forest_element_owners_at_face, t8_forest_element_owners_at_neigh_face_bounds"]}
{"id": "C43", "title": "Face neighbours across trees", "statement": "The face neighbour of an element is computed for every element and face: there is none exactly at the boundary of the domain; otherwise it has the same level, lies in the same tree or in the tree connected at that face and touches the connected face there, the element is its neighbour in turn, and the children at the face meet the children of the neighbour.", "quantifier": "all meshes with trees of any classes, any face connections and orientations, all elements of all levels", "why_tests_cant": "all connectivities, orientations, elements and levels", "anchors": ["src/t8_forest/t8_forest.cxx: t8_forest_element_face_neighbor", "src/t8_schemes/t8_default/t8_default_tet/t8_default_tet.cxx: element_get_boundary_face, element_extrude_face", "src/t8_schemes/t8_default/t8_default_tri/t8_default_tri.cxx: element_transform_face", "src/t8_forest/t8_forest.cxx: t8_forest_element_neighbor_eclass", "src/t8_schemes/t8_default/t8_default_prism/t8_dprism_bits.c: t8_dprism_boundary_face, t8_dprism_extrude_face"]}
{"id": "C44", "title": "Owners of an element and of its faces", "statement": "The list of the owners at a face of an element holds exactly the processes that store a part of a leaf inside the element that touches that face, in increasing order, and the same holds on the other side of the face; the bounds of the owners are the first and the last such process.", "quantifier": "all forests, all distributions including processes without leaves, all elements (not only leaves) and faces", "why_tests_cant": "all refinements and partitions; the owners are found by a recursion that skips whole subtrees when both ends have the same owner", "anchors": ["src/t8_forest/t8_forest.cxx: t8_forest_element_owners_at_face, t8_forest_element_owners_bounds, t8_forest_element_owners_at_face_bounds, t8_forest_element_owners_at_neigh_face, t8_forest_element_owners_at_neigh_face_bounds"]}
{"id": "C45", "title": "The balance check is exact", "statement": "On a forest with a ghost layer t8_forest_is_balanced returns 1 on a process if and only if no leaf of the process has a face neighbour leaf, on any process, that is more than one level finer; all processes return 1 if and only if the forest is balanced.", "quantifier": "all forests, all distributions, debug and release builds", "why_tests_cant": "all refinements and partitions; the check looks only at half size neighbours", "anchors": ["src/t8_forest/t8_forest_balance.cxx: t8_forest_is_balanced, t8_forest_balance_adapt", "src/t8_forest/t8_forest.cxx: t8_forest_element_has_leaf_desc, t8_forest_element_half_face_neighbors"]}
{"id": "C46", "title": "The anchor is the lowest vertex", "statement": "element_get_anchor returns the integer coordinates of vertex number 0 of the element, and no vertex of the element has a smaller coordinate in any direction or leaves the cube of the root.", "quantifier": "all elements of every shape", "why_tests_cant": "there are up to 2^62 elements per shape; tests look at the root and a few levels", "anchors": ["src/t8_schemes/t8_default/t8_default_tri/t8_default_tri.cxx: element_get_anchor", "src/t8_schemes/t8_default/t8_default_tet/t8_default_tet.cxx: element_get_anchor", "src/t8_schemes/t8_default/t8_default_prism/t8_default_prism.cxx: element_get_anchor", "src/t8_schemes/t8_default/t8_default_pyramid/t8_default_pyramid.cxx: element_get_anchor", "src/t8_schemes/t8_default/t8_default_quad/t8_default_quad.cxx: element_get_anchor", "src/t8_schemes/t8_default/t8_default_hex/t8_default_hex.cxx: element_get_anchor"]}
{"id": "C47", "title": "A coarse mesh is what was set", "statement": "After t8_cmesh_commit every tree has the class that was set, every joined face leads to the tree, face and orientation it was joined with, from both sides, and every other face is boundary. Global and local tree numbers are inverse to each other; on a partitioned mesh the ghosts of a process are exactly the trees that are not local and joined with a local one, and all other trees have no local number.", "quantifier": "all sequences of t8_cmesh_set_tree_class, t8_cmesh_set_join and t8_cmesh_set_attribute calls in any order, all dimensions, replicated meshes and every process of a partitioned mesh", "why_tests_cant": "all meshes and orders of calls; the tests build a few dozen meshes", "anchors": ["src/t8_cmesh/t8_cmesh_internal/t8_cmesh_commit.cxx: t8_cmesh_commit_replicated_new, t8_cmesh_commit_partitioned_new", "src/t8_cmesh/t8_cmesh_internal/t8_cmesh_stash.c: t8_stash_add_class, t8_stash_add_facejoin", "src/t8_cmesh/t8_cmesh_internal/t8_cmesh_trees.cxx: t8_cmesh_trees_finish_part, t8_cmesh_trees_set_all_boundary", "src/t8_cmesh/t8_cmesh.cxx: t8_cmesh_get_face_neighbor, t8_cmesh_tree_face_is_boundary, t8_cmesh_get_local_id, t8_cmesh_get_global_id"]}
{"id": "C48", "title": "Tree attributes", "statement": "t8_cmesh_get_attribute returns the bytes that were set for a tree or ghost with this package and key, and NULL if none were set; committing writes only inside the memory of the mesh.", "quantifier": "all sequences of calls, all keys, packages and sizes, replicated and partitioned meshes", "why_tests_cant": "the attributes of all trees share one block of memory with computed offsets; which bytes collide depends on the number and sizes of all attributes", "anchors": ["src/t8_cmesh/t8_cmesh.cxx: t8_cmesh_set_attribute, t8_cmesh_get_attribute", "src/t8_cmesh/t8_cmesh_internal/t8_cmesh_trees.cxx: t8_cmesh_trees_finish_part, t8_cmesh_trees_add_attribute, t8_cmesh_trees_add_ghost_attribute, t8_cmesh_trees_get_attribute", "src/t8_cmesh/t8_cmesh_internal/t8_cmesh_commit.cxx: t8_cmesh_add_attributes"]}
{"id": "C49", "title": "Copies of coarse meshes", "statement": "A coarse mesh derived from another one without a change (t8_cmesh_copy) answers every query about classes, numbers, faces and attributes as the original does.", "quantifier": "all committed meshes, replicated and partitioned", "why_tests_cant": "all meshes; the size of the copied memory is computed again from the attributes", "anchors": ["src/t8_cmesh/t8_cmesh_internal/t8_cmesh_copy.cxx: t8_cmesh_copy", "src/t8_cmesh/t8_cmesh_internal/t8_cmesh_trees.cxx: t8_cmesh_trees_copy_part, t8_cmesh_trees_get_part_alloc"]}
{"id": "C50", "title": "Vertex connectivity of coarse meshes", "statement": "If global vertices are set for all trees of a replicated coarse mesh, then after the commit every tree has the global vertices that were set, the list of a global vertex contains exactly the (tree, vertex) pairs that were set to it, in ascending order, the number of global vertices is the number of different ones, and the global vertices of the trees can be constructed again from the lists. Lists that are filled by hand in any order are the same, and their commit succeeds if and only if every vertex of every tree is contained exactly once.", "quantifier": "all replicated meshes and all choices of global vertices, contiguous or not, all orders of filling a list by hand, all orders of iterating the hash map", "why_tests_cant": "all meshes, numberings and iteration orders of a hash map", "anchors": ["src/t8_cmesh/t8_cmesh_vertex_connectivity/t8_cmesh_vertex_connectivity.hxx: t8_cmesh_vertex_connectivity", "src/t8_cmesh/t8_cmesh_vertex_connectivity/t8_cmesh_vertex_conn_vertex_to_tree.cxx: build_from_ttv, add_vertex_to_tree, commit, contains_all_vertices", "src/t8_cmesh/t8_cmesh_vertex_connectivity/t8_cmesh_vertex_conn_tree_to_vertex.cxx: constructor from a vertex to tree list"]}
{"id": "C51", "title": "Joining trees by their vertices", "statement": "For every list of trees with vertex coordinates that form a conforming mesh, t8_cmesh_set_join_by_vertices finds for every face the other face with the same corners, and no face for those without one, with the orientation as documented for t8_cmesh_set_join. Each such pair is joined by exactly one call of t8_cmesh_set_join; with do_both_directions the returned array has it for both faces. After the commit the neighbour of each face is the face with the same corners, and all other faces are boundary. Corners that differ by less than the tolerance count as the same. t8_cmesh_set_join_by_stash does the same with the classes and vertices that have been set for the mesh, in whatever order.", "quantifier": "all meshes of trees of one dimension, of all classes and any number of trees, all double coordinates", "why_tests_cant": "all meshes and all coordinates, including ones whose rounding puts them into different hash bins", "anchors": ["src/t8_cmesh/t8_cmesh_helpers.cxx: t8_cmesh_set_join_by_vertices", "src/t8_cmesh/t8_cmesh_helpers.cxx: t8_cmesh_set_join_by_stash", "src/t8_cmesh/t8_cmesh_helpers.h: t8_cmesh_set_join_by_vertices", "src/t8_cmesh/t8_cmesh.h: t8_cmesh_set_join", "src/t8_eclass/t8_eclass.c: t8_eclass_compare"]}
