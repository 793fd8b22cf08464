{
 "claims": [
  {
   "property": "C01",
   "status": "proved",
   "theorems": [
    "C01_auto_ids_unique",
    "C01_ids_never_reused",
    "C01_new_vertex_id_fresh"
   ],
   "note": "All histories of make_vertex, make_element, erase_elements and clear with automatic ids."
  },
  {
   "property": "C02",
   "status": "partial",
   "theorems": [
    "C02_explicit_id_collides_refuted",
    "C02_explicit_ids_partial"
   ],
   "note": "False as stated: an explicit id equal to id_upper_bound is handed out again (C02_explicit_id_collides_refuted, in every state). The guarded version is proved."
  },
  {
   "property": "C03",
   "status": "proved",
   "theorems": [
    "C03_boundary_complete",
    "C03_vertices_stored"
   ],
   "note": "All reachable meshes of all six element types; the edges of hexahedra are excepted, see C10."
  },
  {
   "property": "C04",
   "status": "proved",
   "theorems": [
    "C04_no_duplicate_facets",
    "C04_shared_facet_identical"
   ],
   "note": "All reachable meshes."
  },
  {
   "property": "C05",
   "status": "proved",
   "theorems": [
    "C05_local_vertex"
   ],
   "note": "All reachable meshes; edges of hexahedra excepted, see C10."
  },
  {
   "property": "C06",
   "status": "proved",
   "theorems": [
    "C06_creation_defined",
    "C06_insertion_frame",
    "C06_only_own_boundary_appears"
   ],
   "note": "Creation is total and leaves everything that existed unchanged."
  },
  {
   "property": "C07",
   "status": "proved",
   "theorems": [
    "C07_keys_identify_vertex_sets",
    "C07_sorted_ids_equal_iff",
    "C07_key_order"
   ],
   "note": ""
  },
  {
   "property": "C08",
   "status": "proved",
   "theorems": [
    "C08_key_map_is_finite_map"
   ],
   "note": "Refinement of a mathematical finite map."
  },
  {
   "property": "C09",
   "status": "proved",
   "theorems": [
    "C09_binomial",
    "C09_simplex_boundary_num",
    "C09_lines_all_pairs",
    "C09_triangles_all_triples",
    "C09_counts"
   ],
   "note": "All n and k."
  },
  {
   "property": "C10",
   "status": "partial",
   "theorems": [
    "C10_quad_edges",
    "C10_quad_vertex_degree",
    "C10_hex_faces",
    "C10_hex_edges_partial",
    "C10_hex_edge_table_refuted",
    "C10_hex_face_edge_missing_refuted"
   ],
   "note": "Quadrilateral and hexahedron faces proved. The hexahedron edge table is wrong in the code: C10_hex_edge_table_refuted and, for every hexahedron of every mesh, C10_hex_face_edge_missing_refuted."
  },
  {
   "property": "C11",
   "status": "proved",
   "theorems": [
    "C11_insert_unique",
    "C11_erase_first",
    "C11_erase_count",
    "C11_history",
    "C11_order_kept",
    "C11_element_view",
    "C11_mesh_view_insert",
    "C11_mesh_view_erase",
    "C11_equal_ids_refuted"
   ],
   "note": "Sequence views, element_view and set-ordered mesh views, for every content and sequence of operations. For set views the elements must have different ids: C11_equal_ids_refuted shows what happens otherwise. set_handle/resize (null handles) are not modelled."
  },
  {
   "property": "C12",
   "status": "partial",
   "theorems": [
    "C12_mark_exact",
    "C12_mark_closed_partial",
    "C12_erase_element_partial",
    "C12_hexahedron_refuted",
    "C12_creation_after_erase_refuted"
   ],
   "note": "Marking is exact in every history (C12_mark_exact). Closedness under references, hence safe erase_element, is proved when creations precede deletions and cells are not hexahedra (C12_mark_closed_partial, C12_erase_element_partial); it is false otherwise (C12_hexahedron_refuted, C12_creation_after_erase_refuted)."
  },
  {
   "property": "C13",
   "status": "proved",
   "theorems": [
    "C13_erase_exact",
    "C13_no_dangling",
    "C13_ids_not_reused",
    "C13_always_defined",
    "C13_handle_of_last_element_refuted",
    "C13_creation_after_erase_refuted"
   ],
   "note": "For every history of creation, deletion of reference-closed sets and clear. Two neighbouring claims are false and refuted: handles of survivors do not stay valid, and creating elements after a deletion with stored facets can return a wrong facet."
  },
  {
   "property": "C14",
   "status": "proved",
   "theorems": [
    "C14_always_defined",
    "C14_coboundary_exact",
    "C14_coboundary_order"
   ],
   "note": "Every history of creating, erasing (reference-closed), clearing and coboundary/neighbour/boundary queries, const and non-const, on a mesh. The change counter is a natural number (no overflow). Hand-made views are outside (see C11/C12 notes)."
  },
  {
   "property": "C15",
   "status": "proved",
   "theorems": [
    "C15_neighbours_exact",
    "C15_irreflexive_symmetric"
   ],
   "note": "Same histories as C14; irreflexive and symmetric also across the cache update of the first query."
  },
  {
   "property": "C16",
   "status": "proved",
   "theorems": [
    "C16_boundary_exact",
    "C16_facet_parity",
    "C16_three_cells_refuted"
   ],
   "note": "Under the proviso of the statement (no facet in more than two cells); without it the answer is the parity (C16_facet_parity) and C16_three_cells_refuted shows the proviso is needed."
  },
  {
   "property": "C17",
   "status": "partial",
   "theorems": [
    "C17_always_defined",
    "C17_none_missed",
    "C17_now_or_earlier",
    "C17_exact_partial",
    "C17_first_query",
    "C17_symmetric",
    "C17_stale_refuted",
    "C17_order_refuted"
   ],
   "note": "Every history of creations, segment operations and interface queries, cells not hexahedra. The first query about two segments is exact (C17_first_query); no interface element is missed if the interface is symmetric (C17_symmetric gives a criterion) or never asked for in the other order (C17_none_missed); an answer true is about now or an earlier query (C17_now_or_earlier); exact under both conditions (C17_exact_partial). Both conditions are needed: C17_stale_refuted, C17_order_refuted."
  },
  {
   "property": "C18",
   "status": "proved",
   "theorems": [
    "C18_make",
    "C18_get_make",
    "C18_lookup",
    "C18_iteration",
    "C18_upper_bound",
    "C18_stable",
    "C18_init_refuted"
   ],
   "note": "Every history of make/get/rename/clear, exceptions included; ids are unbounded integers. init() on a segmentation that has segments is excluded: C18_init_refuted."
  },
  {
   "property": "C19",
   "status": "partial",
   "theorems": [
    "C19_set_name",
    "C19_names_partial",
    "C19_make_throws",
    "C19_plain_names",
    "C19_decimal_injective",
    "C19_number_refuted",
    "C19_own_name_refuted",
    "C19_same_name_refuted",
    "C19_clear_refuted"
   ],
   "note": "set_name is atomic in every history. Uniqueness and look-up hold in every history without exceptions from segment creation and without clear (C19_names_partial), in particular whenever the names given are not numbers (C19_plain_names). False otherwise: C19_number_refuted, C19_own_name_refuted, C19_same_name_refuted, C19_clear_refuted."
  },
  {
   "property": "C20",
   "status": "proved",
   "theorems": [
    "C20_always_defined",
    "C20_membership",
    "C20_closure",
    "C20_segment_ids",
    "C20_all_elements",
    "C20_add",
    "C20_create",
    "C20_never_added_refuted",
    "C20_clear_refuted",
    "C20_hexahedron_refuted"
   ],
   "note": "Every history of creations (no mesh-level erasures), segment creations, adds, erases and queries, cells not hexahedra. is_in_segment and segment_ids are undefined for an element that was never in any segment (C20_never_added_refuted); clear(segment) breaks the agreement (C20_clear_refuted); hexahedra break closure (C20_hexahedron_refuted)."
  },
  {
   "property": "C21",
   "status": "partial",
   "theorems": [
    "C21_erase_partial",
    "C21_element_stays_refuted"
   ],
   "note": "Exactly the members having the element in their boundary are removed, from that segment only (C21_erase_partial). The element itself is never removed (C21_element_stays_refuted)."
  },
  {
   "property": "C22",
   "status": "proved",
   "theorems": [
    "C22_copy",
    "C22_behaves_alike",
    "C22_queries"
   ],
   "note": "Every mesh after every history of creations, deletions and clears, any allocation of the copies (C22_copy); afterwards both meshes behave alike under every sequence of operations (C22_behaves_alike) and the queries on the copy are exact although the caches are copied (C22_queries). Meshes are separate values in the model; that changes do not leak from one to the other rests on the proved fact that no handle of the copy refers to the source. Copies of mesh views are not modelled; segmented_mesh is copied with copy(), see C24."
  },
  {
   "property": "C23",
   "status": "proved",
   "theorems": [
    "C23_copy",
    "C23_copy_reach"
   ],
   "note": "Every source and destination history (creation, deletion, clear) and every stateless predicate, any cell type, default tolerance. Source and destination have the same cell and point type."
  },
  {
   "property": "C24",
   "status": "partial",
   "theorems": [
    "C24_copy_partial",
    "C24_unrecorded_refuted",
    "C24_twice_refuted",
    "C24_clear",
    "C24_clear_all_elements_refuted",
    "C24_copy_segmentation_partial"
   ],
   "note": "Exact for a new destination segmentation and cells with entries in the source segmentation (C24_copy_partial), and for copy_segmentation (C24_copy_segmentation_partial). Otherwise false: undefined for cells without entries (C24_unrecorded_refuted), and a second copy into the same destination throws (C24_twice_refuted). Cells not hexahedra."
  },
  {
   "property": "C25",
   "status": "partial",
   "theorems": [
    "C25_dense_reads_see_last_write",
    "C25_map_reads_see_last_write",
    "C25_dense_unwritten",
    "C25_map_unwritten",
    "C25_map_field_default_partial",
    "C25_dense_field_default_partial",
    "C25_dense_field_default_refuted",
    "C25_dense_find_refuted",
    "C25_map_at_never_throws_refuted"
   ],
   "note": "Reads see the last write: proved for all histories of all four classes, with the exact behaviour for elements never written. False as stated: the default of a dense field and the null/throw answers of a dense accessor are lost when a larger id is written; at() of a non-const map accessor never throws."
  },
  {
   "property": "C26",
   "status": "proved",
   "theorems": [
    "C26_is_euclidean_volume",
    "C26_defined_for",
    "C26_permutation",
    "C26_translation",
    "C26_scaling",
    "C26_zero_iff_dependent",
    "C26_signed_orientation"
   ],
   "note": "Gram determinant, permutations, translation, scaling, zero iff dependent, orientation; dimensions 1-3, exact reals."
  },
  {
   "property": "C27",
   "status": "proved",
   "theorems": [
    "C27_inner_prod",
    "C27_norms",
    "C27_cross_prod"
   ],
   "note": "All dimensions, exact reals."
  },
  {
   "property": "C28",
   "status": "partial",
   "theorems": [
    "C28_polygon_plane",
    "C28_polygon_star_shaped",
    "C28_polygon_space_partial",
    "C28_polygon_space_refuted",
    "C28_quadrilateral",
    "C28_parallelogram",
    "C28_parallelepiped",
    "C28_hexahedron_refuted",
    "C28_mesh_volume"
   ],
   "note": "Proved: polygons in the plane, parallelograms, parallelepipeds, mesh sums; a convex quadrilateral is right iff its edges 0-1 and 2-3 are parallel. False in general: hexahedra (C28_hexahedron_refuted) and polygons in space (C28_polygon_space_refuted)."
  },
  {
   "property": "C29",
   "status": "partial",
   "theorems": [
    "C29_line",
    "C29_triangle_plane",
    "C29_triangle_space",
    "C29_tetrahedron",
    "C29_tetrahedron_returns_partial",
    "C29_small_tetrahedron_refuted",
    "C29_rectangle_and_cuboid"
   ],
   "note": "Equidistance and uniqueness proved for lines, triangles in 2D and 3D, tetrahedra, rectangles and cuboids. False as stated: small non-degenerate tetrahedra are rejected, C29_small_tetrahedron_refuted."
  },
  {
   "property": "C30",
   "status": "proved",
   "theorems": [
    "C30_triangle",
    "C30_triangle_plane",
    "C30_triangle_no_false_negative",
    "C30_triangle_space_refuted",
    "C30_tetrahedron",
    "C30_tetrahedron_exact"
   ],
   "note": "Triangles in any dimension and tetrahedra, any tolerance. C30_triangle_space_refuted: in space the triangle test ignores the distance from the plane."
  },
  {
   "property": "C31",
   "status": "proved",
   "theorems": [
    "C31_centroid",
    "C31_mesh_centroid",
    "C31_mesh_centroid_exists"
   ],
   "note": ""
  },
  {
   "property": "C32",
   "status": "proved",
   "theorems": [
    "C32_only_points_move",
    "C32_cells",
    "C32_maps",
    "C32_affine_volume",
    "C32_scale_volume",
    "C32_mesh_volume",
    "C32_mesh_centroid"
   ],
   "note": "Any map for the frame property; affine maps for cells of full dimension, scale for all cells."
  },
  {
   "property": "C33",
   "status": "proved",
   "theorems": [
    "C33_children_cover_without_overlap",
    "C33_children_vertices",
    "C33_orientation_kept_and_areas_add_up",
    "C33_edges_split_iff_flagged",
    "C33_children_share_edges"
   ],
   "note": "Exact real coordinates; the new vertices may lie anywhere strictly inside their edges."
  },
  {
   "property": "C34",
   "status": "proved",
   "theorems": [
    "C34_edges_kept_iff_not_flagged",
    "C34_mass_centres_cover_without_overlap",
    "C34_children_cover_without_overlap",
    "C34_children_vertices",
    "C34_children_share_facets",
    "C34_volumes_add_up"
   ],
   "note": "All flag sets, positions and ids; exact real coordinates. Cover, no overlap, exact vertex set, shared inner facets, volumes."
  },
  {
   "property": "C35",
   "status": "partial",
   "theorems": [
    "C35_orientation_kept_partial",
    "C35_orientation_kept_refuted"
   ],
   "note": "False as stated: apply3_3 creates an inverted child; C35_orientation_kept_refuted shows it for every tetrahedron in the configuration turned_path, C35_orientation_kept_partial shows the claim everywhere else."
  },
  {
   "property": "C36",
   "status": "proved",
   "theorems": [
    "C36_shared_face_split_identically"
   ],
   "note": "Any two tetrahedra sharing a face, any vertex orders."
  },
  {
   "property": "C37",
   "status": "proved",
   "theorems": [
    "C37_direction_irrelevant",
    "C37_strict_order",
    "C37_total",
    "C37_respects_length"
   ],
   "note": "Exact real lengths."
  },
  {
   "property": "C38",
   "status": "partial",
   "theorems": [
    "C38_longest_edge_closure_partial",
    "C38_zero_length_refuted",
    "C38_marking_cells"
   ],
   "note": "Exact closure, termination and no lost flags on every reachable mesh in which every cell has an edge of nonzero length (C38_longest_edge_closure_partial). Without that proviso it is false (C38_zero_length_refuted). Marking the edges of marked cells and all edges: C38_marking_cells."
  },
  {
   "property": "C39",
   "status": "proved",
   "theorems": [
    "C39_refine",
    "C39_parts_cover",
    "C39_conforming",
    "C39_cell_and_uniform_refine"
   ],
   "note": "Every reachable source mesh of triangles or tetrahedra with stored edges, any flags, any reachable destination mesh of the same cell type (C39_refine). The parts of a cell cover it (C39_parts_cover) and neighbours agree on their common face (C39_conforming). Cell flags and uniform refinement: C39_cell_and_uniform_refine."
  },
  {
   "property": "C40",
   "status": "partial",
   "theorems": [
    "C40_refine_partial",
    "C40_unrecorded_refuted",
    "C40_named_refuted"
   ],
   "note": "Exact for every reachable source in which every cell has an entry in the segmentation and every reachable destination whose segments have no names of their own (C40_refine_partial). Otherwise false: a cell without an entry makes the call undefined (C40_unrecorded_refuted), a clashing name makes it throw (C40_named_refuted)."
  },
  {
   "property": "C41",
   "status": "proved",
   "theorems": [
    "C41_extract_boundary",
    "C41_extract_facets_parity"
   ],
   "note": "Every history of the volume mesh, every hull element type, under the proviso that no facet has more than two cells; without it the facets with an odd number of cells are extracted (C41_extract_facets_parity). The version with segmentations is C57."
  },
  {
   "property": "C42",
   "status": "proved",
   "theorems": [
    "C42_mesh",
    "C42_segment",
    "C42_segmentation"
   ],
   "note": "Every mesh after every history of creations, deletions and queries (C42_mesh), every segment (C42_segment) and every segmentation with segments (C42_segmentation), cells not hexahedra for segments. Both loops end: the model stops them after a number of rounds and the theorems show that enough rounds exist. The centroid of a cell is the mean of its vertices."
  },
  {
   "property": "C43",
   "status": "partial",
   "theorems": [
    "C43_to_lower_partial",
    "C43_segment_to_lower_partial",
    "C43_to_higher_reads_destination",
    "C43_to_higher_refuted"
   ],
   "note": "Exact for the transfer to lower dimensions, on every mesh after every history and on every segment, any functors (C43_to_lower_partial, C43_segment_to_lower_partial). False for the transfer to higher dimensions, which never reads the source values (C43_to_higher_refuted; what it does: C43_to_higher_reads_destination)."
  },
  {
   "property": "C44",
   "status": "proved",
   "theorems": [
    "C44_merges_or_creates",
    "C44_idempotent",
    "C44_default_at_origin_refuted",
    "C44_default_elsewhere"
   ],
   "note": "Positive tolerance, as stated. C44_default_at_origin_refuted: without a tolerance argument nothing is merged at the origin."
  },
  {
   "property": "C45",
   "status": "partial",
   "theorems": [
    "C45_marked_iff_crossing",
    "C45_new_point",
    "C45_marking_loop",
    "C45_vertex_off_hyperplane_refuted"
   ],
   "note": "Flags and new points exact, whole loop modelled. False for the assigned vertex: make_unique_vertex may pick a vertex off the hyperplane (C45_vertex_off_hyperplane_refuted; C45_marking_loop bounds the distance)."
  },
  {
   "property": "C46",
   "status": "proved",
   "theorems": [
    "C46_coboundary",
    "C46_neighbors",
    "C46_boundary",
    "C46_clear_refuted"
   ],
   "note": "Same histories as C20; is_boundary for meshes where no facet belongs to more than two cells of the segment. clear(segment) makes the queries stale (C46_clear_refuted)."
  },
  {
   "property": "C47",
   "status": "proved",
   "theorems": [
    "C47_point_line",
    "C47_point_triangle",
    "C47_point_tetrahedron",
    "C47_inside"
   ],
   "note": "Every dimension, every point, every line (also with equal end points) and every triangle and tetrahedron with affinely independent vertices. Real arithmetic; the warnings about thin elements have no effect."
  },
  {
   "property": "C48",
   "status": "partial",
   "theorems": [
    "C48_lines_partial",
    "C48_end_points",
    "C48_nearly_parallel_refuted",
    "C48_order_refuted"
   ],
   "note": "Minimal for all lines that are parallel or whose angle has a squared sine of at least one millionth (C48_lines_partial). In all cases no end point is nearer to the other line (C48_end_points). False otherwise: lines crossing at a smaller angle get points with a positive distance (C48_nearly_parallel_refuted), and the first point can lie on the second line (C48_order_refuted)."
  },
  {
   "property": "C49",
   "status": "proved",
   "theorems": [
    "C49_quadrilateral",
    "C49_convex_quadrilateral",
    "C49_hexahedron",
    "C49_parallelepiped"
   ],
   "note": "Every quadrilateral and hexahedron with non-degenerate parts, every dimension; convex plane quadrilaterals and parallelepipeds as whole sets."
  },
  {
   "property": "C50",
   "status": "partial",
   "theorems": [
    "C50_mesh_boundary",
    "C50_between_lines_partial",
    "C50_lines",
    "C50_first_line_refuted",
    "C50_segment_refuted",
    "C50_no_lines",
    "C50_segment_partial"
   ],
   "note": "Point to the boundary of a mesh: every reachable mesh with at most two cells per facet and non-degenerate boundary facets (C50_mesh_boundary). Line to line: C50_lines. Boundaries made of lines: C50_between_lines_partial. distance(line, segment) is false: the first line of the segment is never considered (C50_first_line_refuted, C50_segment_refuted); right if another line is at least as near (C50_segment_partial)."
  },
  {
   "property": "C51",
   "status": "proved",
   "theorems": [
    "C51_points",
    "C51_mesh",
    "C51_empty_refuted"
   ],
   "note": "Every reachable mesh with at least one vertex whose coordinates are within the largest number (C51_mesh), and any list of points (C51_points). Without vertices the box is inside-out and mesh_size is not zero: C51_empty_refuted."
  },
  {
   "property": "C52",
   "status": "proved",
   "theorems": [
    "C52_orthogonalize",
    "C52_count"
   ],
   "note": "Every list of vectors in every dimension, for every tolerance (C52_orthogonalize); the count for tolerance zero (C52_count). Real arithmetic."
  },
  {
   "property": "C53",
   "status": "proved",
   "theorems": [
    "C53_line",
    "C53_triangle",
    "C53_quadrilateral",
    "C53_determinant"
   ],
   "note": "Lines in the plane, triangles, plane quadrilaterals; determinants of order 1 to 3."
  },
  {
   "property": "C54",
   "status": "proved",
   "theorems": [
    "C54_angle",
    "C54_triangle_sum",
    "C54_dihedral"
   ],
   "note": "Real arithmetic: the clamps against rounding have no effect."
  },
  {
   "property": "C55",
   "status": "proved",
   "theorems": [
    "C55_solid_angle",
    "C55_order",
    "C55_additive",
    "C55_inside"
   ],
   "note": "Non-degenerate tetrahedra, and C55_inside for the flat case seen from inside the triangle."
  },
  {
   "property": "C56",
   "status": "proved",
   "theorems": [
    "C56_mesh",
    "C56_element",
    "C56_cells",
    "C56_segment",
    "C56_segments"
   ],
   "note": "Sums over cells and segments where a facet has at most two cells; segments of meshes whose cells are not hexahedra. The functions for the smallest and largest boundary volume cannot be instantiated."
  },
  {
   "property": "C57",
   "status": "proved",
   "theorems": [
    "C57_segments",
    "C57_no_segments",
    "C57_again_refuted"
   ],
   "note": "Into a new segmentation, at most two cells of a segment per facet, cells not hexahedra. A segmentation that was used before makes the call throw (C57_again_refuted)."
  },
  {
   "property": "C58",
   "status": "proved",
   "theorems": [
    "C58_there_and_back",
    "C58_back_and_there",
    "C58_ranges",
    "C58_between",
    "C58_negative_radius_refuted",
    "C58_operators"
   ],
   "note": "Exact real numbers; for every value of atan2(0,0). Cylindrical coordinates with a negative radius are converted to another point (C58_negative_radius_refuted)."
  },
  {
   "property": "C59",
   "status": "proved",
   "theorems": [
    "C59_lexicographic",
    "C59_order"
   ],
   "note": "Real coordinates, so no NaN."
  },
  {
   "property": "C60",
   "status": "proved",
   "theorems": [
    "C60_parse",
    "C60_progress",
    "C60_bracket_refuted",
    "C60_empty_refuted",
    "C60_attributes"
   ],
   "note": "Values that are empty or contain a closing bracket, both legal in XML, are refuted (C60_empty_refuted, C60_bracket_refuted)."
  },
  {
   "property": "C61",
   "status": "partial",
   "theorems": [
    "C61_mesh_partial",
    "C61_isolated_vertex_refuted",
    "C61_missing_file_refuted",
    "C61_reuse_refuted",
    "C61_merged_points_refuted",
    "C61_next_id_refuted",
    "C61_truncated_refuted",
    "C61_nonempty_refuted",
    "C61_bad_file_refuted"
   ],
   "note": "Hexahedra are left out (their wrong boundary edge, see C05). Vertices in no cell and vertices whose points become equal by rounding are not read back; the next id, truncated, missing or bad files and a non-empty mesh are refuted (C61_isolated_vertex_refuted, C61_merged_points_refuted, C61_next_id_refuted, C61_truncated_refuted, C61_missing_file_refuted, C61_bad_file_refuted, C61_reuse_refuted, C61_nonempty_refuted)."
  },
  {
   "property": "C62",
   "status": "partial",
   "theorems": [
    "C62_segments_partial",
    "C62_lost_cell_refuted",
    "C62_single_segment_refuted"
   ],
   "note": "Cells in no segment are lost (C62_lost_cell_refuted), and with at most one segment the segmentation is (C62_single_segment_refuted). Names of segments are not written."
  },
  {
   "property": "C63",
   "status": "partial",
   "theorems": [
    "C63_mesh_data_partial",
    "C63_segment_data_partial",
    "C63_segment_vectors_refuted"
   ],
   "note": "Vectors for an accessor that is registered for a segment are read past the end (C63_segment_vectors_refuted)."
  },
  {
   "property": "C64",
   "status": "partial",
   "theorems": [
    "C64_triangles",
    "C64_quadrilaterals",
    "C64_lines",
    "C64_parallelepipeds",
    "C64_hexahedra_partial",
    "C64_tetrahedra_partial",
    "C64_tetrahedra_refuted"
   ],
   "note": "Proved for lines, triangles, convex quadrilaterals and parallelepipeds (C64_parallelepipeds). False for tetrahedra whose circumcenter is outside (C64_tetrahedra_refuted: at least one and a half times the volume). For other hexahedra and tetrahedra only that the totals of the vertex and of the edge boxes agree (tetrahedra: values of edges are assigned, not added). Triangles are in the plane, arithmetic is exact, meshes are built by the creation functions without erasing."
  },
  {
   "property": "C65",
   "status": "proved",
   "theorems": [
    "C65_interface",
    "C65_delaunay",
    "C65_boxes",
    "C65_no_obtuse_angle",
    "C65_tetrahedra"
   ],
   "note": "The interface of tetrahedra itself is not characterised."
  },
  {
   "property": "C66",
   "status": "partial",
   "theorems": [
    "C66_triangles",
    "C66_interface_partial",
    "C66_interface_refuted",
    "C66_quadrilaterals",
    "C66_hexahedra",
    "C66_lines",
    "C66_tetrahedra"
   ],
   "note": "For the interfaces of triangles only if no circumcenter is behind a boundary edge of its triangle; otherwise it is always false (C66_interface_refuted). Quadrilaterals and hexahedra enter a cell several times for one vertex."
  },
  {
   "property": "C67",
   "status": "proved",
   "theorems": [
    "C67_read",
    "C67_next_id_refuted",
    "C67_append_refuted"
   ],
   "note": "The next automatic ids are not part of the claim: after an odd number of vertices the next vertex gets an id that is taken (C67_next_id_refuted); neither is reading into a mesh that has vertices (C67_append_refuted). Coordinates are given by an abstract format with a reader."
  },
  {
   "property": "C68",
   "status": "partial",
   "theorems": [
    "C68_truncated_partial",
    "C68_no_cells_refuted",
    "C68_bad_number_refuted",
    "C68_last_vertex_refuted"
   ],
   "note": "Proved for files that end with the last character of a word. False if a blank follows: the mesh then silently has no cells (C68_no_cells_refuted) or the last cell has the same vertex twice (C68_last_vertex_refuted). Vertex numbers that do not exist are undefined behaviour (C68_bad_number_refuted)."
  },
  {
   "property": "C69",
   "status": "partial",
   "theorems": [
    "C69_refine_partial",
    "C69_nothing_crosses",
    "C69_parts_cover",
    "C69_conforming",
    "C69_segments_partial",
    "C69_merged_refuted"
   ],
   "note": "Proved if the crossing points are not nearer to each other, or to vertices of the destination, than a millionth of their distance from the origin. False otherwise: two crossing points near a corner share one vertex and a part of the triangle has it twice (C69_merged_refuted). Arithmetic is on real numbers. With segments every cell must have an entry in the segmentation, as in C40."
  },
  {
   "property": "C70",
   "status": "partial",
   "theorems": [
    "C70_copy_partial",
    "C70_unrecorded_refuted",
    "C70_isolated_vertex_refuted",
    "C70_empty_segment_refuted",
    "C70_assign_again_refuted",
    "C70_self_refuted"
   ],
   "note": "Proved for copies when every cell has an entry in the segmentation (C70_copy_partial). Otherwise false: undefined for cells without an entry (C70_unrecorded_refuted); vertices in no cell and segments without cells are lost (C70_isolated_vertex_refuted, C70_empty_segment_refuted); a second assignment throws (C70_assign_again_refuted); assigning an object to itself empties it (C70_self_refuted). Cells not hexahedra."
  },
  {
   "property": "C71",
   "status": "proved",
   "theorems": [
    "C71_contacts",
    "C71_separate_segments",
    "C71_one_plane_refuted"
   ],
   "note": "C71_contacts for all segmentations, C71_separate_segments for segments without overlap. The triangles of a contact need not lie in one plane, as the comment in the code says: the tolerance adds up along the chain (C71_one_plane_refuted). Real arithmetic instead of floating point."
  },
  {
   "property": "C72",
   "status": "partial",
   "theorems": [
    "C72_file_partial",
    "C72_no_segment_refuted"
   ],
   "note": "Proved if every tetrahedron is in a segment (C72_file_partial); otherwise the first entry of an empty list is read (C72_no_segment_refuted). The first of the two numbers of a triangle is the segment the normal vector points away from, while the comment in the code (line 351) says the positive side. The text around the numbers and the rounding of the coordinates are not modelled."
  },
  {
   "property": "C73",
   "status": "proved",
   "theorems": [
    "C73_read"
   ],
   "note": "Vertices with different ids that are not negative. The PLCs are kept beside the mesh, as the model of meshes has no element with a variable number of lines."
  },
  {
   "property": "C74",
   "status": "partial",
   "theorems": [
    "C74_truncated",
    "C74_dimension",
    "C74_bad_polygon_refuted",
    "C74_no_hole_number_refuted"
   ],
   "note": "Files cut off before the end of the last facet (C74_truncated) and files of another dimension (C74_dimension) are rejected. Polygons with unknown vertices or without vertices, and facets without the optional number of holes, are undefined behaviour (C74_bad_polygon_refuted, C74_no_hole_number_refuted)."
  },
  {
   "property": "C75",
   "status": "proved",
   "theorems": [
    "C75_read"
   ],
   "note": "On the sections of the file as lists of numbers; how the sections are found in the text is not modelled."
  },
  {
   "property": "C76",
   "status": "partial",
   "theorems": [
    "C76_not_a_triangle",
    "C76_dimension",
    "C76_plane_refuted",
    "C76_unsupported_refuted",
    "C76_contact_first_refuted"
   ],
   "note": "Faces with other numbers of corners (C76_not_a_triangle) and wrong dimensions (C76_dimension) are rejected. Unsupported elements are not reported (C76_unsupported_refuted), plane files are always rejected (C76_plane_refuted), and a contact before the last polyhedron is undefined behaviour (C76_contact_first_refuted)."
  },
  {
   "property": "C77",
   "status": "partial",
   "theorems": [
    "C77_values",
    "C77_values_refuted",
    "C77_values_defined",
    "C77_mesh_partial",
    "C77_plain_history",
    "C77_positions_refuted",
    "C77_element_type_partial",
    "C77_element_type_refuted",
    "C77_quantity",
    "C77_ignored_refuted",
    "C77_no_quantity_refuted",
    "C77_written",
    "C77_large_value_refuted"
   ],
   "note": "Points, items and, where ids are positions as in all histories without erasing and without explicit ids (C77_plain_history), cells are right (C77_mesh_partial); the quantity is the first by name (C77_quantity). Cells are wrong after erasing (C77_positions_refuted), as is the type of cells that are not simplices of the dimension of the points (C77_element_type_refuted); all values are too large by 0.00001 (C77_values_refuted); large values are undefined behaviour (C77_large_value_refuted); not the first registered quantity is written but the first by name (C77_ignored_refuted); a file without a quantity refers to missing data (C77_no_quantity_refuted)."
  },
  {
   "property": "C78",
   "status": "proved",
   "theorems": [
    "C78_read"
   ],
   "note": "C78_read."
  },
  {
   "property": "C79",
   "status": "partial",
   "theorems": [
    "C79_truncated_refuted",
    "C79_unknown_vertex_refuted",
    "C79_any_file_refuted"
   ],
   "note": "The claim is false: a file that ends before the last vertex (C79_truncated_refuted) and a face with an unknown vertex (C79_unknown_vertex_refuted) are undefined behaviour, and a file without any section is accepted and changes nothing (C79_any_file_refuted)."
  },
  {
   "property": "C80",
   "status": "partial",
   "theorems": [
    "C80_contents_partial",
    "C80_determined",
    "C80_names_refuted",
    "C80_file_name_partial",
    "C80_file_name_refuted"
   ],
   "note": "Proved but for two parts of the claim that are false: names of segments are never written (C80_names_refuted), and the output file name \"vmesh\" gets no extension (C80_file_name_refuted). Meshes of hexahedra are excluded, as in C20."
  }
 ]
}
