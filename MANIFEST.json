{
 "claims": [
  {
   "property": "C01",
   "status": "proved",
   "theorems": [
    "C01_classes_child_parent",
    "C01_classes_parent_child",
    "C01_classes_equal",
    "C01_cube_parent_of_child",
    "C01_cube_child_of_parent",
    "C01_cube_children_array",
    "C01_pyramid_determined",
    "C01_hypercube_parent_of_child",
    "C01_hypercube_child_of_parent",
    "C01_hypercube_children_array",
    "C01_hypercube_shifts",
    "C01_standalone_vertex_shift_refuted",
    "C01_line_parent_of_child",
    "C01_line_child_of_parent",
    "C01_line_children_array",
    "C01_prism_parent_of_child",
    "C01_prism_child_of_parent",
    "C01_prism_children_array",
    "C01_pyramid_parent_of_child",
    "C01_pyramid_child_of_parent",
    "C01_pyramid_num_children",
    "C01_simplex_parent_of_child",
    "C01_simplex_child_of_parent",
    "C01_simplex_children_array",
    "C01_simplex_siblings",
    "C01_simplex_is_parent"
   ],
   "note": "every class of the default scheme (vertices, lines, triangles, tetrahedra, quadrilaterals, hexahedra, prisms, pyramids) and of the standalone scheme (vertices, lines, quadrilaterals, hexahedra), once for all in the _classes theorems; what the default quadrilaterals and hexahedra ask of p4est is a contract, because its source is not in the repository"
  },
  {
   "property": "C02",
   "status": "partial",
   "theorems": [
    "C02_classes_bijection",
    "C02_cube_id_of_element",
    "C02_cube_element_of_id",
    "C02_hypercube_id_of_element",
    "C02_hypercube_element_of_id",
    "C02_hypercube_id_at_other_levels",
    "C02_line_id_of_element",
    "C02_line_element_of_id",
    "C02_line_id_at_other_levels",
    "C02_prism_id_of_element",
    "C02_prism_element_of_id",
    "C02_prism_id_at_other_levels",
    "C02_pyramid_ids_of_level",
    "C02_pyramid_id_of_element",
    "C02_pyramid_element_of_id",
    "C02_pyramid_id_at_other_levels",
    "C02_simplex_id_of_element",
    "C02_simplex_element_of_id",
    "C02_simplex_id_at_other_levels"
   ],
   "note": "every class of the default scheme (vertices, lines, triangles, tetrahedra, quadrilaterals, hexahedra, prisms, pyramids) and of the standalone scheme (vertices, lines, quadrilaterals, hexahedra), once for all in the _classes theorems; what the default quadrilaterals and hexahedra ask of p4est is a contract, because its source is not in the repository; the number of elements is counted exactly, but count_leaves_from_root returns it as a signed 64 bit integer, which overflows on level 21 of tetrahedra, prisms, pyramids and hexahedra"
  },
  {
   "property": "C03",
   "status": "proved",
   "theorems": [
    "C03_classes_successor",
    "C03_cube_successor",
    "C03_hypercube_successor",
    "C03_hypercube_last_has_no_successor",
    "C03_line_successor",
    "C03_prism_successor",
    "C03_prism_last_has_no_successor",
    "C03_pyramid_successor",
    "C03_pyramid_last_has_no_successor",
    "C03_simplex_successor",
    "C03_simplex_last_has_no_successor",
    "C03_simplex_predecessor_refuted"
   ],
   "note": "every class of the default scheme (vertices, lines, triangles, tetrahedra, quadrilaterals, hexahedra, prisms, pyramids) and of the standalone scheme (vertices, lines, quadrilaterals, hexahedra), once for all in the _classes theorems; what the default quadrilaterals and hexahedra ask of p4est is a contract, because its source is not in the repository; an additional function, the predecessor of triangles and tetrahedra, is wrong (refuted)"
  },
  {
   "property": "C04",
   "status": "proved",
   "theorems": [
    "C04_classes_total_order",
    "C04_cube_compare",
    "C04_cube_equal",
    "C04_hypercube_compare",
    "C04_hypercube_equal",
    "C04_line_compare",
    "C04_line_equal",
    "C04_prism_compare",
    "C04_prism_equal",
    "C04_pyramid_compare",
    "C04_pyramid_equal",
    "C04_simplex_compare",
    "C04_simplex_equal"
   ],
   "note": "every class of the default scheme (vertices, lines, triangles, tetrahedra, quadrilaterals, hexahedra, prisms, pyramids) and of the standalone scheme (vertices, lines, quadrilaterals, hexahedra), once for all in the _classes theorems; what the default quadrilaterals and hexahedra ask of p4est is a contract, because its source is not in the repository"
  },
  {
   "property": "C05",
   "status": "proved",
   "theorems": [
    "C05_classes_descendants",
    "C05_cube_first_last",
    "C05_cube_descendant_range",
    "C05_hypercube_first_last",
    "C05_hypercube_descendant_range",
    "C05_line_first_last",
    "C05_prism_first_last",
    "C05_prism_descendant_range",
    "C05_prism_corner_descendant",
    "C05_pyramid_first_last",
    "C05_pyramid_descendant_range",
    "C05_pyramid_corner_descendant",
    "C05_pyramid_corner_descendant_refuted",
    "C05_simplex_descendant_range",
    "C05_simplex_first_last",
    "C05_simplex_corner_descendant"
   ],
   "note": "every class of the default scheme (vertices, lines, triangles, tetrahedra, quadrilaterals, hexahedra, prisms, pyramids) and of the standalone scheme (vertices, lines, quadrilaterals, hexahedra), once for all in the _classes theorems; what the default quadrilaterals and hexahedra ask of p4est is a contract, because its source is not in the repository; an additional function, the corner descendant of pyramids, is wrong (refuted)"
  },
  {
   "property": "C06",
   "status": "proved",
   "theorems": [
    "C06_classes_nca",
    "C06_cube_nca",
    "C06_hypercube_nca",
    "C06_line_nca",
    "C06_prism_nca",
    "C06_pyramid_nca",
    "C06_simplex_nca"
   ],
   "note": "every class of the default scheme (vertices, lines, triangles, tetrahedra, quadrilaterals, hexahedra, prisms, pyramids) and of the standalone scheme (vertices, lines, quadrilaterals, hexahedra), once for all in the _classes theorems; what the default quadrilaterals and hexahedra ask of p4est is a contract, because its source is not in the repository"
  },
  {
   "property": "C07",
   "status": "proved",
   "theorems": [
    "C07_classes_is_ancestor",
    "C07_cube_is_ancestor",
    "C07_cube_ancestor_id",
    "C07_hypercube_is_ancestor",
    "C07_hypercube_ancestor_id",
    "C07_line_is_ancestor",
    "C07_line_ancestor_at_level",
    "C07_prism_is_ancestor",
    "C07_prism_ancestor_id",
    "C07_pyramid_is_ancestor",
    "C07_pyramid_ancestor_id",
    "C07_simplex_is_ancestor",
    "C07_simplex_is_ancestor_coordinates",
    "C07_simplex_ancestor_at_level"
   ],
   "note": "every class of the default scheme (vertices, lines, triangles, tetrahedra, quadrilaterals, hexahedra, prisms, pyramids) and of the standalone scheme (vertices, lines, quadrilaterals, hexahedra), once for all in the _classes theorems; what the default quadrilaterals and hexahedra ask of p4est is a contract, because its source is not in the repository"
  },
  {
   "property": "C08",
   "status": "partial",
   "theorems": [
    "C08_classes_family",
    "C08_cube_family",
    "C08_pyramid_first_child",
    "C08_tetrahedron_last_type_refuted",
    "C08_hypercube_family",
    "C08_hypercube_no_family",
    "C08_line_family",
    "C08_prism_family_recognised",
    "C08_prism_consecutive_elements",
    "C08_prism_arbitrary_list_refuted",
    "C08_pyramid_family_recognised",
    "C08_pyramid_contiguous_only",
    "C08_pyramid_arbitrary_list_refuted",
    "C08_simplex_family_recognised",
    "C08_simplex_consecutive_elements",
    "C08_simplex_arbitrary_list_refuted"
   ],
   "note": "every class of the default scheme (vertices, lines, triangles, tetrahedra, quadrilaterals, hexahedra, prisms, pyramids) and of the standalone scheme (vertices, lines, quadrilaterals, hexahedra), once for all in the _classes theorems; what the default quadrilaterals and hexahedra ask of p4est is a contract, because its source is not in the repository; lists that are not consecutive leaves can be taken for families (refuted for triangles, tetrahedra, prisms and pyramids)"
  },
  {
   "property": "C09",
   "status": "proved",
   "theorems": [
    "C09_cube_children_tile_parent",
    "C09_cube_unrelated_elements_disjoint",
    "C09_hypercube_children_tile_parent",
    "C09_hypercube_unrelated_elements_disjoint",
    "C09_line_children_tile_parent",
    "C09_line_unrelated_elements_disjoint",
    "C09_prism_children_tile_parent",
    "C09_prism_unrelated_elements_disjoint",
    "C09_pyramid_children_tile_parent",
    "C09_pyramid_levels_tile_root",
    "C09_pyramid_unrelated_elements_disjoint",
    "C09_simplex_children_tile_parent",
    "C09_simplex_levels_tile_root",
    "C09_simplex_unrelated_elements_disjoint"
   ],
   "note": "every class of the default scheme and of the standalone scheme (a vertex has no faces and only one child); what the default quadrilaterals and hexahedra ask of p4est is a contract, because its source is not in the repository"
  },
  {
   "property": "C10",
   "status": "proved",
   "theorems": [
    "C10_cube_face_neighbour",
    "C10_cube_face_neighbour_disjoint",
    "C10_cube_tree_elements_aligned",
    "C10_cube_face_corners",
    "C10_cube_corner_face",
    "C10_hypercube_face_neighbour",
    "C10_hypercube_face_neighbour_disjoint",
    "C10_hypercube_tree_elements_aligned",
    "C10_hypercube_face_corners",
    "C10_hypercube_corner_face",
    "C10_line_face_neighbour",
    "C10_prism_face_neighbour",
    "C10_prism_face_neighbour_disjoint",
    "C10_prism_tree_elements_aligned",
    "C10_prism_face_corners",
    "C10_pyramid_face_neighbour",
    "C10_pyramid_face_neighbour_disjoint",
    "C10_pyramid_face_corners",
    "C10_simplex_face_neighbour",
    "C10_simplex_face_neighbour_disjoint",
    "C10_simplex_tree_elements_aligned"
   ],
   "note": "every class of the default scheme and of the standalone scheme (a vertex has no faces and only one child); what the default quadrilaterals and hexahedra ask of p4est is a contract, because its source is not in the repository"
  },
  {
   "property": "C11",
   "status": "proved",
   "theorems": [
    "C11_cube_inside_root",
    "C11_cube_neighbour_inside",
    "C11_cube_root_boundary",
    "C11_cube_tree_face",
    "C11_hypercube_inside_root",
    "C11_hypercube_neighbour_inside",
    "C11_hypercube_root_boundary",
    "C11_hypercube_tree_face",
    "C11_line_inside_root",
    "C11_line_root_boundary",
    "C11_prism_inside_root",
    "C11_prism_neighbour_inside",
    "C11_prism_root_boundary",
    "C11_prism_tree_face",
    "C11_prism_root_planes",
    "C11_pyramid_inside_root",
    "C11_pyramid_neighbour_inside",
    "C11_pyramid_tree_face",
    "C11_pyramid_root_planes",
    "C11_simplex_inside_root",
    "C11_simplex_root_boundary",
    "C11_simplex_tree_face",
    "C11_simplex_root_planes"
   ],
   "note": "every class of the default scheme and of the standalone scheme (a vertex has no faces and only one child); what the default quadrilaterals and hexahedra ask of p4est is a contract, because its source is not in the repository"
  },
  {
   "property": "C12",
   "status": "partial",
   "theorems": [
    "C12_cube_children_at_face",
    "C12_cube_child_face",
    "C12_cube_parent_face",
    "C12_cube_root_parent_face",
    "C12_cube_descendants_at_face",
    "C12_hypercube_children_at_face",
    "C12_hypercube_child_face",
    "C12_hypercube_parent_face",
    "C12_hypercube_descendants_at_face",
    "C12_default_root_parent_face",
    "C12_standalone_root_parent_face_refuted",
    "C12_line_children_at_face",
    "C12_line_parent_face",
    "C12_prism_descendants_at_face",
    "C12_prism_children_at_face",
    "C12_prism_child_face",
    "C12_prism_parent_face",
    "C12_pyramid_descendants_at_face",
    "C12_pyramid_descendants_at_face_refuted",
    "C12_pyramid_children_at_face",
    "C12_pyramid_child_face",
    "C12_pyramid_parent_face",
    "C12_simplex_children_at_face",
    "C12_simplex_child_face",
    "C12_simplex_parent_face"
   ],
   "note": "lines, triangles, tetrahedra, prisms, pyramids, quadrilaterals and hexahedra of the default scheme and vertices, lines, quadrilaterals and hexahedra of the standalone scheme; what the default quadrilaterals and hexahedra ask of p4est is a contract, because its source is not in the repository; the descendant at a face of a tetrahedron of a pyramid tree is not set on its own level (refuted)"
  },
  {
   "property": "C13",
   "status": "proved",
   "theorems": [
    "C13_quad_extrude_then_boundary",
    "C13_quad_boundary_then_extrude",
    "C13_hex_extrude_then_boundary",
    "C13_hex_boundary_then_extrude",
    "C13_hypercube_extrude_then_boundary",
    "C13_hypercube_boundary_then_extrude",
    "C13_line_extrude_then_boundary",
    "C13_line_boundary_then_extrude",
    "C13_prism_extrude_quadrilateral",
    "C13_prism_boundary_quadrilateral",
    "C13_prism_extrude_triangle",
    "C13_prism_boundary_triangle",
    "C13_pyramid_extrude_triangle",
    "C13_pyramid_boundary_triangle",
    "C13_pyramid_extrude_quadrilateral",
    "C13_pyramid_boundary_quadrilateral",
    "C13_triangle_extrude_then_boundary",
    "C13_triangle_boundary_then_extrude",
    "C13_tetrahedron_extrude_then_boundary",
    "C13_tetrahedron_boundary_then_extrude"
   ],
   "note": "lines, triangles, tetrahedra, prisms, pyramids, quadrilaterals and hexahedra of the default scheme and vertices, lines, quadrilaterals and hexahedra of the standalone scheme; what the default quadrilaterals and hexahedra ask of p4est is a contract, because its source is not in the repository"
  },
  {
   "property": "C14",
   "status": "partial",
   "theorems": [
    "C14_quad_transform_face",
    "C14_quad_orientation",
    "C14_quad_distinct_output_partial",
    "C14_quad_distinct_output_refuted",
    "C14_hypercube_transform_face",
    "C14_hypercube_orientation",
    "C14_hypercube_transform_refines",
    "C14_line_transform_face",
    "C14_line_transform_refines",
    "C14_triangle_transform_face",
    "C14_triangle_transform_refines"
   ],
   "note": "vertices, lines, triangles and quadrilaterals, the classes of faces; for default quadrilaterals with sign and another element as output the level is not set (refuted)"
  },
  {
   "property": "C15",
   "status": "partial",
   "theorems": [
    "C15_cube_count_leaves",
    "C15_cube_coarser_level",
    "C15_cube_count_from_root",
    "C15_hypercube_count_leaves_partial",
    "C15_hypercube_coarser_level",
    "C15_hypercube_count_from_root_partial",
    "C15_hexahedron_count_leaves_refuted",
    "C15_line_count_leaves",
    "C15_prism_count_leaves_partial",
    "C15_prism_count_leaves_refuted",
    "C15_pyramid_count_leaves_partial",
    "C15_pyramid_count_root_partial",
    "C15_pyramid_count_leaves_refuted",
    "C15_simplex_count_leaves_partial",
    "C15_triangle_count_leaves",
    "C15_tetrahedron_count_leaves_refuted"
   ],
   "note": "lines, triangles, tetrahedra, prisms, pyramids, quadrilaterals and hexahedra of the default scheme and vertices, lines, quadrilaterals and hexahedra of the standalone scheme; what the default quadrilaterals and hexahedra ask of p4est is a contract, because its source is not in the repository; for tetrahedra, prisms, pyramids and standalone hexahedra at level 21 the 64 bit count overflows (refuted)"
  },
  {
   "property": "C16",
   "status": "proved",
   "theorems": [
    "C16_elements_round_trip",
    "C16_pack_size",
    "C16_message",
    "C16_pack_size_overflow_refuted",
    "C16_standalone_round_trip",
    "C16_pfc_message",
    "C16_vector_round_trip"
   ],
   "note": "all eight classes of the default scheme, the standalone scheme, the messages of partition for coarsening and vectors of user data, for messages below 2^31 bytes; beyond that the size function overflows (refuted)"
  },
  {
   "property": "C17",
   "status": "proved",
   "theorems": [
    "C17_uniform",
    "C17_uniform_covers"
   ],
   "note": "replicated coarse mesh, every scheme satisfying the element laws, fewer than 2^63 elements"
  },
  {
   "property": "C18",
   "status": "proved",
   "theorems": [
    "C18_adapt_ordered",
    "C18_adapt_preserves_domain",
    "C18_adapt_ends",
    "C18_adapt_forest",
    "C18_adapt_recursive_refuted"
   ],
   "note": "one step of t8_forest_adapt for every scheme satisfying the element laws; in recursive mode for callbacks that do not refine elements of the maximum level (the rest is refuted)"
  },
  {
   "property": "C19",
   "status": "proved",
   "theorems": [
    "C19_adapt_obeys_callback",
    "C19_adapts_deterministic",
    "C19_adapt_recursive"
   ],
   "note": ""
  },
  {
   "property": "C20",
   "status": "proved",
   "theorems": [
    "C20_adapt_levels",
    "C20_balance_levels",
    "C20_uniform_levels"
   ],
   "note": "adaptation and recursive adaptation, uniform construction, balance"
  },
  {
   "property": "C21",
   "status": "proved",
   "theorems": [
    "C21_partition_preserves",
    "C21_create_offsets",
    "C21_custom_offsets",
    "C21_gather",
    "C21_empty_tree_refuted"
   ],
   "note": "forests whose trees all have elements; with empty trees the tree arrays come out wrong (refuted); message bytes abstracted to records"
  },
  {
   "property": "C22",
   "status": "partial",
   "theorems": [
    "C22_offsets_monotone",
    "C22_balanced_partial",
    "C22_nearly_balanced_partial",
    "C22_balanced_refuted"
   ],
   "note": "monotone table for all N and P; exact balance for N * P up to 2^53, within one element for N up to 2^50; beyond that the claim is false (refuted)"
  },
  {
   "property": "C23",
   "status": "proved",
   "theorems": [
    "C23_send_recv_match"
   ],
   "note": "every schedule of the sends and receives of the element exchange"
  },
  {
   "property": "C24",
   "status": "proved",
   "theorems": [
    "C24_partition_data"
   ],
   "note": ""
  },
  {
   "property": "C25",
   "status": "partial",
   "theorems": [
    "C25_weighted_partial",
    "C25_no_elements",
    "C25_weighted_refuted"
   ],
   "note": "weights that are integer multiples of a power of two with exact sums; for rounded sums the claim is false (refuted)"
  },
  {
   "property": "C26",
   "status": "proved",
   "theorems": [
    "C26_valid_table_is_the_library_check",
    "C26_any_owner_of_tree",
    "C26_any_owner_of_tree_default_start",
    "C26_first_owner_of_tree",
    "C26_last_owner_of_tree",
    "C26_next_nonempty_rank"
   ],
   "note": "cmesh tree offset tables of any length"
  },
  {
   "property": "C27",
   "status": "proved",
   "theorems": [
    "C27_next_owner_of_tree",
    "C27_prev_owner_of_tree",
    "C27_all_owners_of_tree"
   ],
   "note": ""
  },
  {
   "property": "C28",
   "status": "proved",
   "theorems": [
    "C28_unique_sender",
    "C28_senders_own_and_receivers_need",
    "C28_sendsto_iff_some_tree",
    "C28_nosend_iff_nothing_to_send",
    "C28_range_send_counts_senders"
   ],
   "note": ""
  },
  {
   "property": "C29",
   "status": "partial",
   "theorems": [
    "C29_find_owner_ext_partial",
    "C29_find_owner_desc_partial",
    "C29_find_owner_partial",
    "C29_check_owner",
    "C29_reads_inside_refuted"
   ],
   "note": "the answer is right for every complete forest, element, bounds and rank count; the search reads one entry past the end of the table of first descendants (refuted), the theorems assume that this read does not fault"
  },
  {
   "property": "C30",
   "status": "proved",
   "theorems": [
    "C30_search_lower",
    "C30_search_upper",
    "C30_first_descendant_ancestor",
    "C30_find",
    "C30_is_leaf",
    "C30_empty_array_refuted"
   ],
   "note": "every scheme satisfying the element laws, nonempty arrays; on empty arrays the searches read outside of the array (refuted)"
  },
  {
   "property": "C31",
   "status": "proved",
   "theorems": [
    "C31_split_array",
    "C31_search",
    "C31_recording",
    "C31_c_search",
    "C31_all_leaves",
    "C31_empty_tree_refuted"
   ],
   "note": "every scheme satisfying the element laws and all callbacks, for trees with at least one leaf; on trees without leaves the search reads outside of the array (refuted)"
  },
  {
   "property": "C32",
   "status": "proved",
   "theorems": [
    "C32_reports_changes",
    "C32_reports_adaptation",
    "C32_each_once"
   ],
   "note": "one adaptation step without recursion (what the function is documented for), complete and incomplete forests"
  },
  {
   "property": "C33",
   "status": "proved",
   "theorems": [
    "C33_cube_balance",
    "C33_balance_ends",
    "C33_balance_result",
    "C33_line_balance",
    "C33_triangle_balance",
    "C33_tetrahedron_balance",
    "C33_ghosts_exist",
    "C33_earlier_ghosts_refuted",
    "C33_hybrid_balance_partial",
    "C33_hybrid_balance",
    "C33_hypercube_balance"
   ],
   "note": "every mesh that satisfies the face laws (proved for lines, triangles, tetrahedra, quadrilaterals, hexahedra and the standalone lines, quadrilaterals and hexahedra with any connectivity), with and without repartitioning; the ghosts the forest already has must be a complete layer, as the default version creates it: with the empty ghosts of version 2 the result is not balanced (refuted); and hybrid meshes of lines, quadrilaterals, triangles, hexahedra, tetrahedra and prisms in any combination and connectivity; with pyramids the theorem is partial, because the descendants of their tetrahedra at a face are not set on the level of the tetrahedron"
  },
  {
   "property": "C34",
   "status": "partial",
   "theorems": [
    "C34_cube_neighbors",
    "C34_hybrid_neighbors_partial",
    "C34_hybrid_neighbors",
    "C34_hypercube_neighbors",
    "C34_leaf_neighbors_exact",
    "C34_leaf_neighbors_complete",
    "C34_leaf_neighbors_once_partial",
    "C34_both_kinds",
    "C34_line_neighbors",
    "C34_triangle_neighbors",
    "C34_tetrahedron_neighbors",
    "C34_once_refuted"
   ],
   "note": "the returned set is exactly the leaves and ghosts that share a subface, for every mesh that satisfies the face laws, instantiated for lines, triangles, tetrahedra, quadrilaterals, hexahedra and the standalone lines, quadrilaterals and hexahedra with any connectivity; exactly once holds only at faces whose neighbours are not both local and ghosts, otherwise local ones are listed twice (refuted); and hybrid meshes of lines, quadrilaterals, triangles, hexahedra, tetrahedra and prisms in any combination and connectivity; with pyramids the theorem is partial, because the descendants of their tetrahedra at a face are not set on the level of the tetrahedron"
  },
  {
   "property": "C35",
   "status": "proved",
   "theorems": [
    "C35_leaf_access",
    "C35_leaf_access_end"
   ],
   "note": ""
  },
  {
   "property": "C36",
   "status": "proved",
   "theorems": [
    "C36_ghosts_are_remotes",
    "C36_remote_processes",
    "C36_ghost_data"
   ],
   "note": "every mesh that satisfies the face laws (proved for lines, triangles, tetrahedra, quadrilaterals, hexahedra and the standalone lines, quadrilaterals and hexahedra with any connectivity), every distribution, every order of the messages; version 3 (top-down) of the ghost creation, the default"
  },
  {
   "property": "C37",
   "status": "proved",
   "theorems": [
    "C37_corrected_table",
    "C37_no_family_split",
    "C37_many_trees_refuted"
   ],
   "note": "every scheme with at most 10 children, every pair of tables, every schedule of the messages; at most 2^31 trees (refuted beyond). Message contents are values: the packed bytes are C16"
  },
  {
   "property": "C38",
   "status": "partial",
   "theorems": [
    "C38_face_lists",
    "C38_faces",
    "C38_num_edges",
    "C38_edges",
    "C38_edge_faces",
    "C38_face_edges",
    "C38_edge_neighbors_partial",
    "C38_prism_edge_neighbors_refuted",
    "C38_line_edge_refuted",
    "C38_orientation",
    "C38_tet_normals",
    "C38_counts",
    "C38_maxima",
    "C38_count_boundary",
    "C38_compare",
    "C38_is_valid",
    "C38_vtk_corners"
   ],
   "note": "corner, face, edge and orientation tables of all classes against the geometry of the reference shapes; the edge neighbours of prisms and the edge of a line are wrong (refuted), the edge tables of pyramids are not filled in"
  },
  {
   "property": "C39",
   "status": "proved",
   "theorems": [
    "C39_protocol_safe",
    "C39_counts",
    "C39_no_return",
    "C39_no_leak",
    "C39_unref_exact",
    "C39_second_source_refuted",
    "C39_second_partition_scheme_refuted",
    "C39_search_update_refuted"
   ],
   "note": "every history of calls that keeps to the documented ownership protocol, over schemes, geometry handlers, coarse meshes, forests and searches, including the intermediate forests of commit; three misuses that the code accepts are proved to leak or to use freed memory"
  },
  {
   "property": "C40",
   "status": "partial",
   "theorems": [
    "C40_bounds_partitioned_partial",
    "C40_messages_matched_partial",
    "C40_owner_of_element_partial",
    "C40_tree_owners_partial",
    "C40_owner_of_inner_element",
    "C40_bounds_partitioned_fine",
    "C40_owner_of_element_refuted",
    "C40_bounds_partitioned_refuted",
    "C40_empty_partitioned_refuted",
    "C40_first_element",
    "C40_ranges",
    "C40_bounds_equal",
    "C40_bounds_irregular_partial",
    "C40_empty_process_refuted",
    "C40_tree_table"
   ],
   "note": "element ranges for all N and P, bounds on replicated and on partitioned coarse meshes; on a process without elements the first tree can be wrong (refuted); on a partitioned coarse mesh the bounds and the matching of all messages are proved if the process of the first element of each tree is found exactly; this is proved if the number of elements is a power of two or if the numbers of elements of the trees have a common divisor greater than the number of processes, and refuted in general (long double rounding)"
  },
  {
   "property": "C41",
   "status": "proved",
   "theorems": [
    "C41_tree_table",
    "C41_first_descendants",
    "C41_incomplete_refuted"
   ],
   "note": "complete forests; with incomplete trees the table can be wrong (refuted)"
  },
  {
   "property": "C42",
   "status": "proved",
   "theorems": [
    "C42_cube_ghost_layer",
    "C42_ghost_begins",
    "C42_exchange_ends",
    "C42_ghost_layer",
    "C42_line_ghost_layer",
    "C42_triangle_ghost_layer",
    "C42_tetrahedron_ghost_layer",
    "C42_versions_refuted",
    "C42_balanced_boundary_refuted",
    "C42_hybrid_ghost_layer_partial",
    "C42_hybrid_ghost_layer",
    "C42_hypercube_ghost_layer"
   ],
   "note": "version 3 (top-down, the default), for every mesh that satisfies the face laws, instantiated for meshes of lines, triangles, tetrahedra, quadrilaterals, hexahedra and the standalone lines, quadrilaterals and hexahedra with any connectivity; the versions 1 and 2 create no ghosts (refuted); and hybrid meshes of lines, quadrilaterals, triangles, hexahedra, tetrahedra and prisms in any combination and connectivity; with pyramids the theorem is partial, because the descendants of their tetrahedra at a face are not set on the level of the tetrahedron"
  },
  {
   "property": "C43",
   "status": "proved",
   "theorems": [
    "C43_cube_neighbors",
    "C43_hybrid_neighbors",
    "C43_hypercube_neighbors",
    "C43_line_neighbors",
    "C43_triangle_neighbors",
    "C43_tetrahedron_neighbors"
   ],
   "note": "hybrid meshes of lines, quadrilaterals, triangles, hexahedra, tetrahedra, prisms and pyramids of the default scheme in any combination and with any connectivity, and meshes of lines, of quadrilaterals and of hexahedra of the standalone scheme; what the default quadrilaterals and hexahedra ask of p4est is a contract"
  },
  {
   "property": "C44",
   "status": "proved",
   "theorems": [
    "C44_owners_at_face",
    "C44_owners_at_neighbor_face",
    "C44_face_bounds",
    "C44_neighbor_face_bounds",
    "C44_boundary_bounds",
    "C44_element_bounds"
   ],
   "note": "every mesh that satisfies the face laws (proved for lines, triangles, tetrahedra, quadrilaterals, hexahedra and the standalone lines, quadrilaterals and hexahedra with any connectivity), every distribution"
  },
  {
   "property": "C45",
   "status": "partial",
   "theorems": [
    "C45_is_balanced_partial",
    "C45_all_balanced_partial",
    "C45_unset_level_refuted"
   ],
   "note": "inside balance (maxlevel_existing is set), and outside of it for forests without leaves of the maximum level; with such a leaf the check aborts (refuted). Every mesh that satisfies the face laws"
  },
  {
   "property": "C46",
   "status": "partial",
   "theorems": [
    "C46_cube_anchor",
    "C46_simplex_anchor",
    "C46_prism_anchor_refuted",
    "C46_prism_lowest_vertex",
    "C46_pyramid_anchor_partial",
    "C46_pyramid_anchor_refuted"
   ],
   "note": "triangles, tetrahedra, quadrilaterals and hexahedra of the default scheme; the anchor of prisms is always the origin (refuted); the anchor of pyramids is a lowest vertex but not vertex 0 for those pointing down (refuted)"
  },
  {
   "property": "C47",
   "status": "proved",
   "theorems": [
    "C47_replicated_mesh_is_what_was_set",
    "C47_partitioned_mesh_is_what_was_set"
   ],
   "note": "replicated and partitioned meshes, under the condition on attributes of C48, without which the commit can fail"
  },
  {
   "property": "C48",
   "status": "partial",
   "theorems": [
    "C48_replicated_attributes",
    "C48_partitioned_attributes",
    "C48_last_tree_without_attribute_refuted",
    "C48_commit_in_bounds_refuted",
    "C48_ghost_without_attribute_refuted"
   ],
   "note": "proved if the last local tree has an attribute or no local tree has one and all ghosts have one or none; otherwise attributes are overwritten or memory outside of the mesh is written (refuted)"
  },
  {
   "property": "C49",
   "status": "partial",
   "theorems": [
    "C49_replicated_copy",
    "C49_partitioned_copy_partial",
    "C49_copy_finds_ghosts_refuted"
   ],
   "note": "proved for replicated meshes; of a partitioned mesh all queries by local number except the neighbours of ghosts; the local numbers of ghosts are lost (refuted)"
  },
  {
   "property": "C50",
   "status": "partial",
   "theorems": [
    "C50_vertex_connectivity",
    "C50_lists_by_hand",
    "C50_commit_counts_vertices",
    "C50_lists_after_commit_only",
    "C50_commit_finds_missing_vertices_refuted",
    "C50_vertices_of_some_trees_refuted"
   ],
   "note": "proved for meshes whose trees all have global vertices and for lists filled by hand with every vertex exactly once; refuted: the commit by hand accepts lists in which a vertex is missing and another one is contained twice; global vertices of only some trees make the commit of the mesh fail"
  },
  {
   "property": "C51",
   "status": "partial",
   "theorems": [
    "C51_connectivity",
    "C51_joins",
    "C51_tolerance_refuted",
    "C51_bins_refuted",
    "C51_committed_mesh",
    "C51_coordinates_suffice",
    "C51_bounds",
    "C51_stash",
    "C51_stash_committed"
   ],
   "note": "connectivity, orientations and calls proved for all conforming meshes of one dimension whose common corners are given by the same doubles and whose coordinates have hash bins; refuted for corners that differ by less than the tolerance (different bins) and for two-dimensional trees with a third coordinate below the others (undefined conversion); C51_coordinates_suffice gives a condition on the coordinates alone that suffices for the tolerance and the bins"
  }
 ]
}
