# Formal model of viennagrid in Rocq (Coq 8.16.1)

## What is modelled

viennagrid is a header-only C++ template library for unstructured meshes.  The
model covers the library as instantiated by its own mesh configurations
(`config/mesh_config.hpp`): vertices and cells in a deque, all intermediate
elements in a key-ordered map (`hidden_key_map`), pointer handles, integer ids.
Both the default configuration (all element kinds stored, with boundary tables
and orientation) and the thin one (vertices and cells only) are covered; the
configuration is a parameter (`cfg_cell`, `cfg_keep`).

General conventions, valid for every model file:

- A pointer handle is an abstract address.  Looking up an address that is not
  live is undefined behaviour and is the separate outcome `None` of the model.
- `assert(false)` branches are the separate outcome `None` as well.
- Exceptions are explicit results.
- Coordinates are exact real numbers (`Coq.Reals`).  Rounding is not modelled,
  and the numeric tolerances in the source are kept as written.
- Integers are unbounded.  Overflow of ids and counters is not modelled.
- Template dispatch on element tags is a match on the tag.
- A loop of the source is a structural recursion.  A `while` loop takes a number
  of rounds and the theorem says that enough rounds exist (C38, C42), so running
  out is never a normal result.
- One thread.  The library has no locks, no threads and no persistent state, so
  there are no schedules or crash points; "history" means a list of calls.

## Trusted base

- Coq's kernel (8.16.1); `coqchk` rechecks all compiled files.
- The translation by hand from C++ to Gallina.  Every definition of a `Model*.v`
  file cites the lines it models, and the simplifications made.
- The `Spec*.v` files: they say in the model's terms what the English says.
- Axioms, all from Coq's standard library, as listed by `Print Assumptions` for
  each theorem in the last section: none for most theorems; for theorems about
  real numbers `ClassicalDedekindReals.sig_forall_dec`,
  `ClassicalDedekindReals.sig_not_dec` and
  `FunctionalExtensionality.functional_extensionality_dep`.
- No axioms of our own, no admitted proofs, no functors, no plugins.

## Layout

- `rocq/theories/Model*.v`: definitions only, each citing the source.
- `Spec*.v`: the small independent specifications used in theorem statements.
- `*Base.v`, `*Proofs.v` and the other files: lemmas.  `*Demo.v`: boolean checks
  that show concrete meshes to be reachable.
- `Prop*.v`: the property theorems, each closed by a lemma, with
  `Print Assumptions` beneath and `Example`s that meet its hypotheses.
- `seeded/LOG.jsonl`: the wrong programs tried, and which theorems noticed.

## Plan and result per property

For each property: how it is modelled and proved, the status, and what is missing.
The theorem names are in `MANIFEST.json` and in the last section.

- **C01 Automatically assigned element ids are unique and never reused** — Mesh model (state = containers, id generators, change counter). Invariant by induction over operation lists: ids of a container pairwise distinct and below the generator. *Proved.* All histories of make_vertex, make_element, erase_elements and clear with automatic ids.
- **C02 Explicit ids and automatic ids do not collide** — Same model with make_vertex_with_id. Expected to be refuted at x == last_id; the guarded version is proved. *Partial.* False as stated: an explicit id equal to id_upper_bound is handed out again (C02_explicit_id_collides_refuted, in every state). The guarded version is proved.
- **C03 Creating an element creates its whole boundary** — Invariant of the recursive insertion: every complete element has its full boundary table, every handle in it is live. *Proved.* All reachable meshes of all six element types; the edges of hexahedra are excepted, see C10.
- **C04 A facet shared by several cells is stored once** — Invariant: keys of a key map are pairwise distinct and equal the sorted vertex ids of the stored element. *Proved.* All reachable meshes.
- **C05 A cell sees its boundary elements in its own orientation** — Invariant of the recursive insertion: composing the stored orientation with the stored vertex list gives the reference vertices. *Proved.* All reachable meshes; edges of hexahedra excepted, see C10.
- **C06 Insertion does not disturb existing elements** — Frame lemma of insert: live handles keep id, vertices, boundary, orientation. *Proved.* Creation is total and leaves everything that existed unchanged.
- **C07 Element keys identify vertex sets** — Keys as sorted lists; order laws by induction on lists. *Proved.* 
- **C08 The key-indexed container behaves like a finite map that never overwrites** — Refinement of the sorted association list to a function key -> option element. *Proved.* Refinement of a mathematical finite map.
- **C09 Simplex boundary tables** — Pascal recursion equals length of the list of k-subsets; generators equal the list of increasing pairs/triples. *Proved.* All n and k.
- **C10 Hexahedron and quadrilateral boundary tables are consistent** — Finite tables; quadrilateral proved, hexahedron refuted (edge 6 is {2,5}). *Partial.* Quadrilateral and hexahedron faces proved. The hexahedron edge table is wrong in the code: C10_hex_edge_table_refuted and, for every hexahedron of every mesh, C10_hex_face_edge_missing_refuted.
- **C11 Views contain each element once and in insertion order** — Lists of handles; NoDup invariants, filter characterisation. *Proved.* Sequence views, element_view and set-ordered mesh views, for every content and sequence of operations. For set views the elements must have different ids: C11_equal_ids_refuted shows what happens otherwise. set_handle/resize (null handles) are not modelled.
- **C12 Marking for erasure is closed under "refers to"** — mark_referencing on the mesh model; set characterisation through the coboundary theorem. *Partial.* Marking is exact in every history (C12_mark_exact). Closedness under references, hence safe erase_element, is proved when creations precede deletions and cells are not hexahedra (C12_mark_closed_partial, C12_erase_element_partial); it is false otherwise (C12_hexahedron_refuted, C12_creation_after_erase_refuted).
- **C13 Erasing elements removes exactly the marked elements** — erase_functor on the mesh model with swap-with-last; simulation against removing by id. Refuted for key maps (key of the erased element stays on the survivor). *Proved.* For every history of creation, deletion of reference-closed sets and clear. Two neighbouring claims are false and refuted: handles of survivors do not stay valid, and creating elements after a deletion with stored facets can return a wrong facet.
- **C14 Coboundary queries are exact and never stale** — Cache with change counter; invariant "counter equal implies content equals recomputation" over all operation lists. *Proved.* Every history of creating, erasing (reference-closed), clearing and coboundary/neighbour/boundary queries, const and non-const, on a mesh. The change counter is a natural number (no overflow). Hand-made views are outside (see C11/C12 notes).
- **C15 Neighbour queries are exact, symmetric and irreflexive** — create_neighbor_information as fold; symmetric/irreflexive/exact by induction. *Proved.* Same histories as C14; irreflexive and symmetric also across the cache update of the first query.
- **C16 Boundary detection** — Parity of incidences; equals "exactly one" under the two-cell bound; refuted without it. *Proved.* Under the proviso of the statement (no facet in more than two cells); without it the answer is the parity (C16_facet_parity) and C16_three_cells_refuted shows the proviso is needed.
- **C17 Interface detection** — Interface cache as state machine; exactness of one detection; refutations for staleness and asymmetry. *Partial.* Every history of creations, segment operations and interface queries, cells not hexahedra. The first query about two segments is exact (C17_first_query); no interface element is missed if the interface is symmetric (C17_symmetric gives a criterion) or never asked for in the other order (C17_none_missed); an answer true is about now or an earlier query (C17_now_or_earlier); exact under both conditions (C17_exact_partial). Both conditions are needed: C17_stale_refuted, C17_order_refuted.
- **C18 Segment ids** — Segmentation state machine; invariant over operation lists. *Proved.* Every history of make/get/rename/clear, exceptions included; ids are unbounded integers. init() on a segmentation that has segments is excluded: C18_init_refuted.
- **C19 Segment names** — Name map added; refutations by concrete histories, guarded positive theorem. *Partial.* set_name is atomic in every history. Uniqueness and look-up hold in every history without exceptions from segment creation and without clear (C19_names_partial), in particular whenever the names given are not numbers (C19_plain_names). False otherwise: C19_number_refuted, C19_own_name_refuted, C19_same_name_refuted, C19_clear_refuted.
- **C20 Adding to a segment adds the closure and membership is consistent** — Segment views and element->segment ids as two structures; agreement invariant. *Proved.* Every history of creations (no mesh-level erasures), segment creations, adds, erases and queries, cells not hexahedra. is_in_segment and segment_ids are undefined for an element that was never in any segment (C20_never_added_refuted); clear(segment) breaks the agreement (C20_clear_refuted); hexahedra break closure (C20_hexahedron_refuted).
- **C21 Erasing from a segment** — erase(segment, element) on the model; refuted for the element itself, exact for referencing elements. *Partial.* Exactly the members having the element in their boundary are removed, from that segment only (C21_erase_partial). The element itself is never removed (C21_element_stays_refuted).
- **C22 Copying a mesh gives an independent isomorphic mesh** — fix_handles as handle map; isomorphism theorem; disjointness of addresses. *Proved.* Every mesh after every history of creations, deletions and clears, any allocation of the copies (C22_copy); afterwards both meshes behave alike under every sequence of operations (C22_behaves_alike) and the queries on the copy are exact although the caches are copied (C22_queries). Meshes are separate values in the model; that changes do not leak from one to the other rests on the proved fact that no handle of the copy refers to the source. Copies of mesh views are not modelled; segmented_mesh is copied with copy(), see C24.
- **C23 Filtered copy maps each vertex once** — vertex_copy_map as association list; fold over cells. *Proved.* Every source and destination history (creation, deletion, clear) and every stateless predicate, any cell type, default tolerance. Source and destination have the same cell and point type.
- **C24 Copying a segmentation preserves membership** — Extension of C23 with segment ids. *Partial.* Exact for a new destination segmentation and cells with entries in the source segmentation (C24_copy_partial), and for copy_segmentation (C24_copy_segmentation_partial). Otherwise false: undefined for cells without entries (C24_unrecorded_refuted), and a second copy into the same destination throws (C24_twice_refuted). Cells not hexahedra.
- **C25 Accessors and fields: reads see the last write** — Association list / resizing list model; read-over-write laws; refutation for the default value after resize. *Partial.* Reads see the last write: proved for all histories of all four classes, with the exact behaviour for elements never written. False as stated: the default of a dense field and the null/throw answers of a dense accessor are lost when a larger id is written; at() of a non-const map accessor never throws.
- **C26 Spanned volumes** — Real polynomials and square roots (Coq Reals). *Proved.* Gram determinant, permutations, translation, scaling, zero iff dependent, orientation; dimensions 1-3, exact reals.
- **C27 Vector algebra** — Coq Reals. *Proved.* All dimensions, exact reals.
- **C28 Volumes of cells** — Coq Reals; refuted for general quadrilaterals in reference order. *Partial.* Proved: polygons in the plane, parallelograms, parallelepipeds, mesh sums; a convex quadrilateral is right iff its edges 0-1 and 2-3 are parallel. False in general: hexahedra (C28_hexahedron_refuted) and polygons in space (C28_polygon_space_refuted).
- **C29 Circumcenters are equidistant** — field over Reals. *Partial.* Equidistance and uniqueness proved for lines, triangles in 2D and 3D, tetrahedra, rectangles and cuboids. False as stated: small non-degenerate tetrahedra are rejected, C29_small_tetrahedron_refuted.
- **C30 Point inclusion** — Reals. *Proved.* Triangles in any dimension and tetrahedra, any tolerance. C30_triangle_space_refuted: in space the triangle test ignores the distance from the plane.
- **C31 Centroids** — Reals. *Proved.* 
- **C32 Geometric transforms** — Reals plus list of vertices. *Proved.* Any map for the frame property; affine maps for cells of full dimension, scale for all cells.
- **C33 Triangle refinement** — Case analysis over 8 flag sets and one comparison; polynomial identities with arbitrary positive weights. *Proved.* Exact real coordinates; the new vertices may lie anywhere strictly inside their edges.
- **C34 Tetrahedron refinement covers the tetrahedron** — Table generated from the source; case analysis over 64 flag sets and all comparison outcomes allowed by a strict total order; polynomial identities with arbitrary positive weights. *Proved.* All flag sets, positions and ids; exact real coordinates. Cover, no overlap, exact vertex set, shared inner facets, volumes.
- **C35 Tetrahedron refinement preserves orientation** — Same; refuted for apply3_3 (child 6,4,5,2), proved for all other cases. *Partial.* False as stated: apply3_3 creates an inverted child; C35_orientation_kept_refuted shows it for every tetrahedron in the configuration turned_path, C35_orientation_kept_partial shows the claim everywhere else.
- **C36 Refinement is conforming across shared faces** — Same enumeration; induced face subdivision equals a symmetric face specification. *Proved.* Any two tetrahedra sharing a face, any vertex orders.
- **C37 The length comparison used by refinement is a strict total order** — Lexicographic order on (length, smaller id, larger id). *Proved.* Exact real lengths.
- **C38 Longest-edge closure terminates and is the least closure** — Monotone fixpoint on finite flag sets; measure; least closed set. *Partial.* Exact closure, termination and no lost flags on every reachable mesh in which every cell has an edge of nonzero length (C38_longest_edge_closure_partial). Without that proviso it is false (C38_zero_length_refuted). Marking the edges of marked cells and all edges: C38_marking_cells.
- **C39 Mesh refinement creates one vertex per used vertex and flagged edge** — simple_refine on the mesh model. *Proved.* Every reachable source mesh of triangles or tetrahedra with stored edges, any flags, any reachable destination mesh of the same cell type (C39_refine). The parts of a cell cover it (C39_parts_cover) and neighbours agree on their common face (C39_conforming). Cell flags and uniform refinement: C39_cell_and_uniform_refine.
- **C40 Refinement preserves segment membership** — simple_refine with segment ids. *Partial.* Exact for every reachable source in which every cell has an entry in the segmentation and every reachable destination whose segments have no names of their own (C40_refine_partial). Otherwise false: a cell without an entry makes the call undefined (C40_unrecorded_refuted), a clashing name makes it throw (C40_named_refuted).
- **C41 Boundary extraction** — extract_boundary on the mesh model. *Proved.* Every history of the volume mesh, every hull element type, under the proviso that no facet has more than two cells; without it the facets with an odd number of cells are extracted (C41_extract_facets_parity). The version with segmentations is C57.
- **C42 Seed points: one per connected component** — Worklist model; components as equivalence classes of reachability. *Proved.* Every mesh after every history of creations, deletions and queries (C42_mesh), every segment (C42_segment) and every segmentation with segments (C42_segmentation), cells not hexahedra for segments. Both loops end: the model stops them after a number of rounds and the theorems show that enough rounds exist. The centroid of a cell is the mean of its vertices.
- **C43 Quantity transfer** — Association lists of values; refuted for the coboundary direction (reads the destination). *Partial.* Exact for the transfer to lower dimensions, on every mesh after every history and on every segment, any functors (C43_to_lower_partial, C43_segment_to_lower_partial). False for the transfer to higher dimensions, which never reads the source values (C43_to_higher_refuted; what it does: C43_to_higher_reads_destination).
- **C44 make_unique_vertex merges near points only** — Linear search; refuted for the default tolerance at the origin. *Proved.* Positive tolerance, as stated. C44_default_at_origin_refuted: without a tolerance argument nothing is merged at the origin.
- **C45 Hyperplane refinement leaves no crossing edge** — Reals. *Partial.* Flags and new points exact, whole loop modelled. False for the assigned vertex: make_unique_vertex may pick a vertex off the hyperplane (C45_vertex_off_hyperplane_refuted; C45_marking_loop bounds the distance).
- **C46 Segment-restricted queries are exact and never stale** — A segment is a second mesh reading elements through a view; the query theorems of C14-C16 are reused on that mesh, with the segment operations keeping the cache invariant. *Proved.* Same histories as C20; is_boundary for meshes where no facet belongs to more than two cells of the segment. clear(segment) makes the queries stale (C46_clear_refuted).
- **C47 Closest point of a line, triangle or tetrahedron** — Coq Reals; squared distances, Pythagoras and leaving a convex set along a straight line. *Proved.* Every dimension, every point, every line (also with equal end points) and every triangle and tetrahedron with affinely independent vertices. Real arithmetic; the warnings about thin elements have no effect.
- **C48 Closest points of two lines** — As C47 on the unit square of parameters; refuted for nearly parallel lines and for the order of the points. *Partial.* Minimal for all lines that are parallel or whose angle has a squared sine of at least one millionth (C48_lines_partial). In all cases no end point is nearer to the other line (C48_end_points). False otherwise: lines crossing at a smaller angle get points with a positive distance (C48_nearly_parallel_refuted), and the first point can lie on the second line (C48_order_refuted).
- **C49 Closest point of a quadrilateral or hexahedron** — C47 on the parts, and the decompositions of C28. *Proved.* Every quadrilateral and hexahedron with non-degenerate parts, every dimension; convex plane quadrilaterals and parallelepipeds as whole sets.
- **C50 Distances** — Loop invariant over the facets on top of C16; refuted for the distance of a line and a segment. *Partial.* Point to the boundary of a mesh: every reachable mesh with at most two cells per facet and non-degenerate boundary facets (C50_mesh_boundary). Line to line: C50_lines. Boundaries made of lines: C50_between_lines_partial. distance(line, segment) is false: the first line of the segment is never considered (C50_first_line_refuted, C50_segment_refuted); right if another line is at least as near (C50_segment_partial).
- **C51 Bounding box and mesh size** — Coq Reals; induction over the vertices, on every reachable mesh. *Proved.* Every reachable mesh with at least one vertex whose coordinates are within the largest number (C51_mesh), and any list of points (C51_points). Without vertices the box is inside-out and mesh_size is not zero: C51_empty_refuted.
- **C52 Orthogonalisation** — Induction over the vectors with the span as invariant. *Proved.* Every list of vectors in every dimension, for every tolerance (C52_orthogonalize); the count for tolerance zero (C52_count). Real arithmetic.
- **C53 Normal vectors and determinants** — Algebraic identities in Coq Reals. *Proved.* Lines in the plane, triangles, plane quadrilaterals; determinants of order 1 to 3.
- **C54 Angles** — acos and Cauchy-Schwarz; three vectors summing to zero have angles summing to two right angles. *Proved.* Real arithmetic: the clamps against rounding have no effect.
- **C55 Solid angles** — The formula of van Oosterom and Strackee against the theorem of Girard, through the cosines and sines of the dihedral angles. *Proved.* Non-degenerate tetrahedra, and C55_inside for the flat case seen from inside the triangle.
- **C56 Surfaces** — Double counting over facets on top of C16 and C46. *Proved.* Sums over cells and segments where a facet has at most two cells; segments of meshes whose cells are not hexahedra. The functions for the smallest and largest boundary volume cannot be instantiated.
- **C57 Boundary extraction with segments** — Loop invariant relating the extracted pairs (segment id, element) to the hull, on top of C20, C46 and the copy invariant of C23. *Proved.* Into a new segmentation, at most two cells of a segment per facet, cells not hexahedra. A segmentation that was used before makes the call throw (C57_again_refuted).
- **C58 Coordinate systems** — Coq Reals; identities of atan2 and acos. *Proved.* Exact real numbers; for every value of atan2(0,0). Cylindrical coordinates with a negative radius are converted to another point (C58_negative_radius_refuted).
- **C59 Order of points** — Induction over the coordinates. *Proved.* Real coordinates, so no NaN.
- **C60 XML tags are read back as they were written** — ModelXml: streams as lists of characters, the loops of xml_tag::parse as recursions over them. Proof: induction over the attributes, each read by inductions over its characters. *Proved.* Values that are empty or contain a closing bracket, both legal in XML, are refuted (C60_empty_refuted, C60_bracket_refuted).
- **C61 A mesh written to a VTK file is read back** — ModelVtk: the writer as a function from meshes to texts, the reader as a state monad over texts with exceptions, endless loops as a separate outcome, then the building of the mesh with the modelled creation functions. The format of numbers is a parameter. Proof: the text of every section is parsed to what was written (VtkText); the reader stores the points by place of first occurrence (VtkSim); building follows the source cell by cell (VtkBuild, VtkSource, VtkLink, VtkTop). *Partial.* Hexahedra are left out (their wrong boundary edge, see C05). Vertices in no cell and vertices whose points become equal by rounding are not read back; the next id, truncated, missing or bad files and a non-empty mesh are refuted (C61_isolated_vertex_refuted, C61_merged_points_refuted, C61_next_id_refuted, C61_truncated_refuted, C61_missing_file_refuted, C61_bad_file_refuted, C61_reuse_refuted, C61_nonempty_refuted).
- **C62 A segmented mesh written to VTK files is read back with its segments** — As C61, with the collection file (VtkPvd) and an induction over the segments in which the points and cells known so far are an invariant (VtkLink.chain_spec, VtkTop.segments_top). *Partial.* Cells in no segment are lost (C62_lost_cell_refuted), and with at most one segment the segmentation is (C62_single_segment_refuted). Names of segments are not written.
- **C63 Quantities written to VTK files are read back** — As C61 and C62; setupData is modelled as the list of assignments, and VtkLink.deliver_spec gives them by place. *Partial.* Vectors for an accessor that is registered for a segment are read past the end (C63_segment_vectors_refuted).
- **C64 The Voronoi boxes cover the mesh** — ModelVoronoi: the loop over the cells as a fold of updates of six accessors (values and lists of contributions); coboundary queries go through the cache model of C14. Proof: per cell the pieces are shares of the area (VoronoiGeom, VoronoiTri, VoronoiStep), the loop adds them (VoronoiLoop), sums are exchanged. Parallelepipeds: every edge of a face carries a determinant, the faces a sixth of the volume each (VoronoiHex). *Partial.* Proved for lines, triangles, convex quadrilaterals and parallelepipeds (C64_parallelepipeds). False for tetrahedra whose circumcenter is outside (C64_tetrahedra_refuted: at least one and a half times the volume). For other hexahedra and tetrahedra only that the totals of the vertex and of the edge boxes agree (tetrahedra: values of edges are assigned, not added). Triangles are in the plane, arithmetic is exact, meshes are built by the creation functions without erasing.
- **C65 What the Voronoi quantities are** — Every branch of the model is computed in the coordinates of the triangle (VoronoiGeom: alpha, gamma), giving each edge of a triangle its signed distance (VoronoiEdge.tri_side); the cells at an edge are then summed up. *Proved.* The interface of tetrahedra itself is not characterised.
- **C66 The contributions of the cells add up to the Voronoi quantities** — The fold of updates is split into values and contributions (VoronoiUpd); what is not entered is computed for each branch (VoronoiGap). *Partial.* For the interfaces of triangles only if no circumcenter is behind a boundary edge of its triangle; otherwise it is always false (C66_interface_refuted). Quadrilaterals and hexahedra enter a cell several times for one vertex.
- **C67 A Netgen file is read as the mesh it describes** — ModelNetgen: a stream of characters with a good flag, words, numbers, and the two loops on the state of mesh and segmentation. Proof: an invariant that relates the state to one reached by creations without explicit ids (NetgenSim, NetgenBuild), and the words of the text that are left (NetgenText). *Proved.* The next automatic ids are not part of the claim: after an odd number of vertices the next vertex gets an id that is taken (C67_next_id_refuted); neither is reading into a mesh that has vertices (C67_append_refuted). Coordinates are given by an abstract format with a reader.
- **C68 A malformed Netgen file is rejected** — As for C67; the good flag is lost exactly when a word ends at the end of the file. *Partial.* Proved for files that end with the last character of a word. False if a blank follows: the mesh then silently has no cells (C68_no_cells_refuted) or the last cell has the same vertex twice (C68_last_vertex_refuted). Vertex numbers that do not exist are undefined behaviour (C68_bad_number_refuted).
- **C69 Refinement along a hyperplane leaves no cell crossing it** — ModelHyperplane on top of the refinement of C39 and C40, whose proof is generic in the place of the new vertices. Coverage for tetrahedra: with masses at the corners inverse to their distances from the hyperplane each new vertex is the centre of mass of its edge, which makes the subdivision an image of that at midpoints (RefineCut). *Partial.* Proved if the crossing points are not nearer to each other, or to vertices of the destination, than a millionth of their distance from the origin. False otherwise: two crossing points near a corner share one vertex and a part of the triangle has it twice (C69_merged_refuted). Arithmetic is on real numbers. With segments every cell must have an entry in the segmentation, as in C40.
- **C70 Copying or assigning a segmented mesh gives the same mesh and segments** — ModelSegmentedMesh: a store of variables, so that source and destination can be the same. By C24. *Partial.* Proved for copies when every cell has an entry in the segmentation (C70_copy_partial). Otherwise false: undefined for cells without an entry (C70_unrecorded_refuted); vertices in no cell and segments without cells are lost (C70_isolated_vertex_refuted, C70_empty_segment_refuted); a second assignment throws (C70_assign_again_refuted); assigning an object to itself empties it (C70_self_refuted). Cells not hexahedra.
- **C71 The contacts of a Comsol file are the flat patches of the segment hulls** — ModelMphtxt.mark_planar with fuel for the recursion, which is shown to suffice: every call marks a triangle of the segment. Invariant of the depth-first search: marked triangles stay, new ones are reached by unmarked links, and all links of new ones are marked. *Proved.* C71_contacts for all segmentations, C71_separate_segments for segments without overlap. The triangles of a contact need not lie in one plane, as the comment in the code says: the tolerance adds up along the chain (C71_one_plane_refuted). Real arithmetic instead of floating point.
- **C72 A Comsol file holds the mesh and the hulls of its segments** — ModelMphtxt.write_mphtxt gives the numbers of the file. Invariant of the map of triangles over the visited pairs of segment and triangle; the test with the centres is shown to be the side of the opposite corner. *Partial.* Proved if every tetrahedron is in a segment (C72_file_partial); otherwise the first entry of an empty list is read (C72_no_segment_refuted). The first of the two numbers of a triangle is the segment the normal vector points away from, while the comment in the code (line 351) says the positive side. The text around the numbers and the rounding of the coordinates are not modelled.
- **C73 A .poly file is read as the piecewise linear complexes it describes** — ModelPoly.read_poly. A specification of the lines and words of a text; one lemma for all loops over lines; invariant that the lines have the sorted ids of their vertices as distinct keys. *Proved.* Vertices with different ids that are not negative. The PLCs are kept beside the mesh, as the model of meshes has no element with a variable number of lines.
- **C74 Malformed .poly files are rejected** — The loops of C73 on a prefix of the lines, and up to the bad line. *Partial.* Files cut off before the end of the last facet (C74_truncated) and files of another dimension (C74_dimension) are rejected. Polygons with unknown vertices or without vertices, and facets without the optional number of holes, are undefined behaviour (C74_bad_polygon_refuted, C74_no_hole_number_refuted).
- **C75 A .bnd file is read as the surfaces it describes** — ModelBnd.read_bnd. Invariant of the two maps of the reader, with the vertices, triangles and segment contents so far; sorted lists with the same members are equal. *Proved.* On the sections of the file as lists of numbers; how the sections are found in the text is not modelled.
- **C76 Malformed .bnd files are rejected** — The loops of C75 up to the bad polygon; lengths of the vector of segments. *Partial.* Faces with other numbers of corners (C76_not_a_triangle) and wrong dimensions (C76_dimension) are rejected. Unsupported elements are not reported (C76_unsupported_refuted), plane files are always rejected (C76_plane_refuted), and a contact before the last polyhedron is undefined behaviour (C76_contact_first_refuted).
- **C77 An OpenDX file shows the mesh and the registered quantity** — ModelOpendx.write_opendx, with real numbers; invariants of the map of quantities under registration and of the ids of vertices under plain histories. *Partial.* Points, items and, where ids are positions as in all histories without erasing and without explicit ids (C77_plain_history), cells are right (C77_mesh_partial); the quantity is the first by name (C77_quantity). Cells are wrong after erasing (C77_positions_refuted), as is the type of cells that are not simplices of the dimension of the points (C77_element_type_refuted); all values are too large by 0.00001 (C77_values_refuted); large values are undefined behaviour (C77_large_value_refuted); not the first registered quantity is written but the first by name (C77_ignored_refuted); a file without a quantity refers to missing data (C77_no_quantity_refuted).
- **C78 A Neper .tess file is read as what it describes** — ModelNeper.read_tess on texts; lemmas on lines and numbers of the .poly reader; invariants for the vertices, the table of lines and the PLCs over the entries of each section. *Proved.* C78_read.
- **C79 A .tess file that is not complete is rejected** — ModelNeper.read_tess; refuted for all such files. *Partial.* The claim is false: a file that ends before the last vertex (C79_truncated_refuted) and a face with an unknown vertex (C79_unknown_vertex_refuted) are undefined behaviour, and a file without any section is accepted and changes nothing (C79_any_file_refuted).
- **C80 A ViennaMesh file summarises the mesh** — ModelVmesh.write_vmesh and vm_file_name on texts; a separate document tree with its printer; the counts from the invariant of segments; unique parsing of the text. *Partial.* Proved but for two parts of the claim that are false: names of segments are never written (C80_names_refuted), and the output file name "vmesh" gets no extension (C80_file_name_refuted). Meshes of hexahedra are excluded, as in C20.

## Which parts of the code are modelled

Per model file, the source lines its definitions cite (files under `/repo/viennagrid`).

- `ModelAccessor.v`: accessor.hpp 124-139, 228-233, 713-718, 197-258, 680-751, 326-383, 816-880.
- `ModelBnd.v`: bnd_reader.hpp 447-563, 785-795, 780-784, 481-490, 472-490, 461-491, 508-512, 493, 516, 846-847, 884-901, 856-905, 850-908, 818-909.
- `ModelClosest.v`: closest_points.hpp 40-53, 194-214, 268-327, 387-451, 481-511, 530-613, 643-683; distance.hpp 41-55.
- `ModelCoords.v`: point.hpp 103-257, 327-502, 611-688, 735-750, 528-572, 103-117, 119-133, 126, 253, 135-149, 174-187, 190-204, 206-220, 223-237, 239-253, 459, 472, 485, 366-408, 410-452, 627-630, 455-502, 674-688.
- `ModelCopy.v`: mesh_operations.hpp 25-128, 95, 58-69, 84-87, 77-90, 108-128; extract_boundary.hpp 32-62; element_creation.hpp 205-218.
- `ModelCopySeg.v`: mesh_operations.hpp 139-165, 156-164; segmentation.hpp 912-921, 1973-2018, 2228-2281, 915-921, 1938-1940, 747, 2010-2018, 2240-2260, 2274-2281; mesh.hpp 1399-1409; container.hpp 50-74.
- `ModelDistance.v`: closest_points.hpp 163-170, 776-781, 878-883, 751-785, 838-890; distance.hpp 36-55, 93-106, 241-262; view.hpp 91-95.
- `ModelErase.v`: element_deletion.hpp 42-62, 36-82, 110-126, 92-127, 144-158; container.hpp 50-55.
- `ModelExtract.v`: extract_boundary.hpp 86-151, 123-149, 117-150; segmentation.hpp 747.
- `ModelGeom.v`: point.hpp 528-572, 265-277, 634-637, 291-303, 317-325, 662-681, 714-719, 669-688; norm.hpp 46-58, 61-72, 124-129, 75-88; inner_prod.hpp 35-81; cross_prod.hpp 59-69.
- `ModelGeometry.v`: geometry.hpp 170-193, 196-227, 229-242, 244-257, 260-293, 33-98, 126-160; angle.hpp 27-43, 46-53, 57-84, 87-95; point.hpp 692-700, 702-710.
- `ModelHyperplane.v`: refine.hpp 383-390, 681-704, 1038-1062.
- `ModelInterface.v`: interface.hpp 68-78, 83-91, 97-150, 212-237, 247-273; segmentation.hpp 1221-1291, 1221-1234, 1237-1267, 1251-1253; accessor.hpp 712-717; boundary.hpp 76-113.
- `ModelKeyMap.v`: hidden_key_map.hpp 113, 136-144, 147-151, 153-157, 159-162.
- `ModelLongest.v`: refine.hpp 234-370, 289-294, 282-300, 256-312, 250-318, 322-353, 356-370.
- `ModelMesh.v`: mesh_config.hpp 140-228, 70-93, 252-258; handle.hpp; element_config.hpp 290-300; element_key.hpp 60, 69-82, 46-61; element.hpp 180-182, 530-611, 135-146, 121-150, 113-151, 575-582, 159-168; hidden_key_map.hpp 113, 136-144, 147-151; mesh.hpp 225-313, 240, 847-869, 297-300, 278-292, 915-947, 830-835; inserter.hpp 131, 30-49, 103-135; id_generator.hpp 109-127; container.hpp 397-437; element_orientation.hpp 75-80; simplex.hpp 100-107; element_creation.hpp 163-196, 28-46.
- `ModelMeshCopy.v`: mesh.hpp 258-292, 1621-1742, 265-268, 281-288, 1646-1649, 1626-1656, 1693-1717, 1690-1718, 1671-1740, 265-271.
- `ModelMphtxt.v`: mphtxt_writer.hpp 84-92, 60-94, 112-137, 99-140, 38-50, 262-311, 225-237, 398-408, 158-410; segmentation.hpp 1156-1171; geometry.hpp 67-82.
- `ModelNeper.v`: neper_tess_reader.hpp 106-122, 146-149, 154-166, 170-182, 135-192, 205-219, 98-104, 127-133, 197-203, 95-222, 60-223.
- `ModelNetgen.v`: netgen_reader.hpp 92-95, 87-98, 125-132, 114-135, 46-137, 140-150; element_creation.hpp 48-66; segmentation.hpp 2172-2192, 736.
- `ModelOpendx.v`: opendx_writer.hpp 43-50, 159-160, 209-219, 302-303, 53-75, 139-152, 163-195, 111-202.
- `ModelPoly.v`: tetgen_poly_reader.hpp 47-49, 51-58, 37-60, 183-196, 257-264, 276-279, 266-281, 245-281, 288-301, 333-345, 225-311, 367-382, 317-331, 351-365, 119-384; default_configs.hpp 243-249; view.hpp 256-262; element_config.hpp 44-47; element_creation.hpp 289-315, 232-242; plc.hpp 68-91.
- `ModelQuery.v`: coboundary_iteration.hpp 188-192, 206, 175-208, 255-274, 351-352, 335-395; neighbor_iteration.hpp 187-191, 212-227, 206-211, 198-229, 175-228, 232-251, 318-319, 302-360; boundary.hpp 52-56, 88-91, 68, 34-71, 76-113, 176-184, 201-222, 243-262; mesh.hpp 64-92, 319-320, 278-300; mesh_config.hpp 386-600, 588-600; accessor.hpp 228-233, 236-242, 838-846.
- `ModelRefine.v`: refine_tet.hpp 37-82; refine_tri.hpp.
- `ModelRefineMesh.v`: refine.hpp 44-187, 433-670, 168-180, 72-76, 44-78, 149-187, 468-499, 517-566; refine_tri.hpp 339-377; refine_tet.hpp 2060-2101.
- `ModelRefineSeg.v`: refine.hpp 92-138, 191-229, 723-1063, 129-135, 114-136, 729-815, 834-902.
- `ModelRefineTet.v`: refine_tet.hpp 124-147, 153-260, 284-300, 316-324, 332-577, 598-672, 690-698, 715-759, 775-821, 829-1154, 1175-1225, 1242-1455, 1462-1736, 1757-1804, 1810-1937, 1950-2053, 2070-2101.
- `ModelRefineTri.v`: refine_tri.hpp 55-84, 155-163, 100-164, 244-272, 181-273, 283-334, 349-377.
- `ModelSeeds.v`: extract_seed_points.hpp 43-50, 35-58, 28-61, 89-99, 86-101, 69-103, 119-133; centroid.hpp 37-59, 60-105.
- `ModelSegment.v`: segmentation.hpp 151-157, 544-556, 1550-1719, 1825-1937, 2053-2192, 680, 546, 1100-1175, 1557-1594, 1667-1673, 1829-1844, 1859-1867, 1923-1937, 2172-2192, 2061-2077, 2095-2113, 2156-2165, 153-157; inserter.hpp 159-242, 185-192; mesh.hpp 265-271, 1225-1323, 278-300; container.hpp 530-546; coboundary_iteration.hpp 398-440; neighbor_iteration.hpp 378-420; boundary.hpp 265-273; accessor.hpp 236-242; view.hpp 495-503; element_creation.hpp; mesh_operations.hpp 167-224.
- `ModelSegmentation.v`: segmentation.hpp 56-148, 518-945, 544-553, 929-940, 571, 688-690, 612, 620-637, 644-661, 755-761, 673-696, 721, 94-103, 703-713, 915-921, 577-583, 816-893, 813, 81, 87.
- `ModelSegmentedMesh.v`: segmented_mesh.hpp 51, 66-70, 59-63, 53-56; mesh_operations.hpp 139-165.
- `ModelSurface.v`: surface.hpp 30-119, 62-82, 33-53, 113-119; volume.hpp 36-170, 196-212.
- `ModelTopo.v`: forwards.hpp; typelist.hpp; simplex.hpp 76-83, 30-52, 91-109, 112-132; quadrilateral.hpp 40-47, 65-90; hexahedron.hpp 40-47, 1, 80-137, 158-203; element.hpp 73-78; element_config.hpp 290-300; line.hpp 48-53.
- `ModelTransfer.v`: quantity_transfer.hpp 78-92, 53-103, 106-146, 34-49, 152-172.
- `ModelView.v`: view.hpp 203-281, 264, 256-262, 270-278, 301-547, 495-503; element_view.hpp 67-112; mesh_operations.hpp 167-224, 167-207, 219-223; element_deletion.hpp 162-220, 197-203, 214-220; container.hpp 36-46, 530-546; forwards.hpp 94-97; mesh.hpp 1430-1452, 247-256, 577-610.
- `ModelVmesh.v`: vmesh_writer.hpp 62, 61-66, 47-48, 79-84, 69-87; vertex.hpp 32; line.hpp 32; simplex.hpp 64-69; quadrilateral.hpp 33; hexahedron.hpp 34.
- `ModelVolume.v`: refine.hpp 374-412, 376-412; point.hpp 528-572; spanned_volume.hpp 38-121, 272-298; volume.hpp 100-127, 36-170, 175-191, 183-189; centroid.hpp 37-59, 116-146, 134-140; circumcenter.hpp 58-71, 85-113, 151-171, 208-240, 120-143, 178-201, 246-269; inclusion.hpp 33-62, 66-90; numeric.hpp 60-65, 60-75; geometric_transform.hpp 61-81, 113-141, 31-43; element_creation.hpp 199-219, 222-228.
- `ModelVoronoi.v`: voronoi.hpp 53-77, 112-137, 214-243, 205-245, 840-887, 250-274, 278-294, 394-527, 348-374, 376-392, 338-568, 639-668, 671-719, 745-753, 722-789, 593-793; circumcenter.hpp 58-71.
- `ModelVtk.v`: vtk_writer.hpp 36-64, 157-162, 228-252, 255-320, 330-376, 406-451, 490-560, 165-207, 209-226, 395-454, 462-500, 456-564; vtk_reader.hpp 97-111, 156-187, 266-283, 286-309, 312-338, 341-351, 231-262, 265-338, 341-400, 712-786, 193-206, 706-793, 841-857, 802-880, 403-408, 446-459, 411-476, 479-690, 693-717, 905-948; vtk_common.hpp 89-157, 36-82; helper.hpp 37-97; point.hpp 1046-1066; xml_tag.hpp; element_key.hpp 45.
- `ModelXml.v`: xml_tag.hpp 241-246, 56-63, 242-252, 82-84, 87-94, 104-107, 126-151, 110-158, 108-159, 73-163, 166-185, 191-202, 218-229, 205-215.

## What is not modelled

- `io/helper.hpp` apart from the functions that the readers and writers use, `storage/io.hpp`.
- `io/neper_tess_reader.hpp` 46-52: the overload without seed points returns the value of a void function as an int and cannot be instantiated.
- `io/bnd_reader.hpp` 251-445 and 570-675: how the sections are found in the text (the loops `while(1)` do not end if a section is missing) and the names and contacts of regions, which `bnd_reader` does not use.
- `algorithm/voronoi.hpp`: triangles in space (the code calls the plane formulas on the first two coordinates), the dispatch on the cell type (892-935). `algorithm/surface.hpp` 124-235 (smallest and largest facet volume) passes the mesh where a point accessor is expected and cannot be instantiated.
- `algorithm/closest_points.hpp`: the overloads for pairs of elements other than (point, element) and (line, line), and the dispatch of the public functions on the argument types (1015-1058).
- `io/serialization.hpp`: the constructor of `mesh_serializer` from a mesh and `load(mesh &)` cannot be instantiated (they take the address of a class template), so that a serializer never has a mesh and saving or loading always throws.
- Template machinery: `meta/*`, `typemap`/`typelist` algorithms, `config` result
  types.  The model starts after instantiation.
- PLC elements (`topology/plc.hpp`) other than those that the .poly, .bnd and .tess readers
  make (`ModelPoly.v`: their lines, loose vertices and hole points), and polygons as cells
  of a mesh; the area of a polygon is modelled.
- id and weak-iterator handles; containers other than deque and key map (the
  other configurations only change the container).
- `null` handles in views, `set_handle`, `resize` of views.
- Iterators are modelled as positions in the list of elements a range runs over.

## Where the code does not do what a user would expect

Each item is a theorem about the model (in `Prop*.v`) with the suffix
`_refuted`, stated for every case the defect affects wherever possible, and the
place in the source it comes from.  None was changed in the source.

- `C02_explicit_id_collides_refuted` (`storage/id_generator.hpp 97-140`): `set_max_id(x)` does nothing when x equals the last id, so an explicit id equal to the upper bound is handed out a second time.
- `C10_hex_edge_table_refuted`, `C10_hex_face_edge_missing_refuted` (`topology/hexahedron.hpp 113-114`): edge 6 of a hexahedron joins vertices 2 and 5, a face diagonal, in place of 2 and 6.
- `C11_equal_ids_refuted` (`storage/container.hpp 530-546`): set-ordered views compare ids only; two elements with the same id cannot both be in a view.
- `C12_creation_after_erase_refuted`, `C13_creation_after_erase_refuted` (`mesh/element_deletion.hpp 92-127, storage/hidden_key_map.hpp`): erasing from a key map swaps element contents but leaves the keys, so later creations find the wrong element.
- `C12_hexahedron_refuted` (`topology/hexahedron.hpp 113-114`): because of the wrong edge, erasing does not follow all references.
- `C13_handle_of_last_element_refuted` (`mesh/element_deletion.hpp 42-62`): erasing moves the last element, so every handle of that element is left dangling.
- `C16_three_cells_refuted` (`algorithm/boundary.hpp 34-71`): the boundary flag is toggled per cell; a facet of three cells counts as boundary.
- `C17_stale_refuted`, `C17_order_refuted` (`algorithm/interface.hpp 49-150, mesh/segmentation.hpp 1221-1291`): the interface cache is only recomputed for one order of the two segments, and keeps old flags.
- `C18_init_refuted` (`mesh/segmentation.hpp 929-940`): `init` on a segmentation that has segments repeats ids.
- `C19_number_refuted`, `C19_own_name_refuted`, `C19_same_name_refuted`, `C19_clear_refuted` (`mesh/segmentation.hpp 620-713, 915-921`): default names are numbers and clash with given ones; renaming a segment to its own name fails; a failed creation leaves a half-made segment; `clear` keeps the names.
- `C20_clear_refuted`, `C46_clear_refuted` (`mesh/segmentation.hpp 153-157, mesh/mesh.hpp 278-300`): clearing a segment leaves the element-to-segment records and the change counter.
- `C24_clear_all_elements_refuted` (`mesh/segmentation.hpp 915-921`): clearing a segmentation leaves all_elements() as it was.
- `C20_never_added_refuted` (`mesh/segmentation.hpp 1557-1594`): `is_in_segment` of an element that was never added reads past the end.
- `C20_hexahedron_refuted` (`topology/hexahedron.hpp 113-114`): closure of segments under boundary elements fails through the wrong edge.
- `C21_element_stays_refuted` (`mesh/segmentation.hpp 2061-2165`): `erase(segment, element)` removes the referencing elements but not the element itself.
- `C24_unrecorded_refuted`, `C24_twice_refuted`, `C57_again_refuted`, `C40_unrecorded_refuted`, `C40_named_refuted` (`mesh/segmentation.hpp 1973-2018, algorithm/refine.hpp 92-138`): copying or refining with segments is undefined for cells in no segment, and throws if segment names clash.
- `C25_dense_field_default_refuted`, `C25_dense_find_refuted`, `C25_map_at_never_throws_refuted` (`accessor.hpp 326-383, 680-880`): growing a dense field forgets the default value; `find` on a dense accessor reports values never written; `at` of a map accessor inserts.
- `C28_hexahedron_refuted`, `C28_polygon_space_refuted` (`algorithm/volume.hpp 100-170`): the hexahedron volume and the polygon area in space are wrong outside special positions.
- `C29_small_tetrahedron_refuted` (`algorithm/circumcenter.hpp 151-171`): an absolute tolerance rejects small tetrahedra.
- `C30_triangle_space_refuted` (`algorithm/inclusion.hpp 33-62`): in space the triangle test ignores the distance from the plane.
- `C35_orientation_kept_refuted` (`algorithm/detail/refine_tet.hpp (apply3_3)`): one child is created with inverted orientation.
- `C38_zero_length_refuted` (`algorithm/refine.hpp 236-319`): a cell with only zero-length edges leaves the "longest" edge unset.
- `C43_to_higher_refuted` (`algorithm/quantity_transfer.hpp 106-146`): the transfer to higher dimensions reads the destination instead of the source.
- `C44_default_at_origin_refuted` (`mesh/element_creation.hpp 222-228`): the default tolerance is relative to the norm of the point, hence zero at the origin.
- `C70_self_refuted`, `C70_assign_again_refuted`, `C70_unrecorded_refuted`, `C70_isolated_vertex_refuted`, `C70_empty_segment_refuted` (`mesh/segmented_mesh.hpp 53-63`): assigning a `segmented_mesh` to itself empties it, assigning to one that has segments throws, copying one whose segmentation was never used is undefined, and vertices in no cell and empty segments are not copied.
- `C45_vertex_off_hyperplane_refuted` (`algorithm/refine.hpp 374-412`): `make_unique_vertex` may pick a nearby vertex that is off the hyperplane.
- `C69_merged_refuted` (`algorithm/refine.hpp 681-704`): `hyperplane_refine` makes degenerate cells: crossing points nearer than a millionth of their distance from the origin share one vertex.
- `C48_nearly_parallel_refuted` (`algorithm/closest_points.hpp 284-291`): lines with a squared sine below 1e-6 are treated as parallel, so crossing lines get a positive distance.
- `C48_order_refuted` (`algorithm/closest_points.hpp 268-327`): when an end point of the second line is nearest, the returned pair is swapped.
- `C50_first_line_refuted`, `C50_segment_refuted` (`algorithm/distance.hpp 252, storage/view.hpp 91-95`): postfix `++` of view iterators returns the new position, so `distance(line, segment)` skips the first line and reads past the end of a segment with one line.
- `C51_empty_refuted` (`algorithm/geometry.hpp 207-242`): the bounding box of a mesh without vertices is inside-out, so its `mesh_size` is huge.
- `C58_negative_radius_refuted` (`point.hpp 239-253`): cylindrical coordinates with a negative radius, which stretching a spherical point by a negative factor and converting it produces, are converted to the point on the other side of the axis.
- `C60_bracket_refuted`, `C60_empty_refuted` (`io/xml_tag.hpp 108-159`): a closing bracket inside of an attribute value ends the tag and loses the attribute; an empty value is rejected.
- `C61_isolated_vertex_refuted`, `C61_merged_points_refuted` (`io/vtk_writer.hpp 165-207, io/vtk_reader.hpp 231-262`): vertices of no cell are not written, and vertices at points that become equal by rounding are read as one.
- `C61_next_id_refuted` (`io/vtk_reader.hpp 403-408, storage/id_generator.hpp 97-140`): after reading a mesh with an odd number of vertices the next vertex gets an id that is taken.
- `C61_nonempty_refuted` (`io/vtk_reader.hpp 403-459`): read into a mesh that has vertices, the cells of the file are put on the old vertices.
- `C61_truncated_refuted` (`io/vtk_reader.hpp 265-351`): a truncated file keeps the reader in a loop without end.
- `C61_missing_file_refuted`, `C61_bad_file_refuted`, `C61_reuse_refuted` (`io/vtk_reader.hpp 706-793, 193-206`): a missing or malformed .vtu file is not reported: the mesh stays empty, and after a malformed one the stream stays open, so that the reader reads nothing any more.
- `C62_lost_cell_refuted`, `C62_single_segment_refuted` (`io/vtk_writer.hpp 456-564`): cells in no segment are not written, and with fewer than two segments the segmentation is not.
- `C63_segment_vectors_refuted` (`io/vtk_reader.hpp 549, 641`): reading vectors for an accessor of a segment runs past the end of the array.
- `C66_interface_refuted` (`algorithm/voronoi.hpp 343-527`): if the circumcenter of a triangle lies behind an edge at the boundary, the interfaces are larger than the sum of their cell contributions.
- `C67_next_id_refuted`, `C67_append_refuted` (`io/netgen_reader.hpp 88-99, 131, storage/id_generator.hpp 97-140`): after an odd number of vertices (or cells) the next one gets an id that is taken; read into a mesh that has vertices, the cells are put on the old ones.
- `C71_one_plane_refuted` (`io/mphtxt_writer.hpp 84-92`): the tolerance for coplanar triangles holds between neighbours only, so that a finely meshed curved surface is one contact.
- `C72_no_segment_refuted` (`io/mphtxt_writer.hpp 404-405`): for a tetrahedron in no segment the first entry of an empty range is read.
- `C68_no_cells_refuted`, `C68_last_vertex_refuted` (`io/netgen_reader.hpp 101-135`): the stream is tested before reading instead of after it, so that a file cut off after a blank is read as a mesh without cells, or with a cell that has a vertex twice.
- `C74_no_hole_number_refuted` (`io/tetgen_poly_reader.hpp 225-238`): the number of holes of a facet, which the format makes optional, is read into a variable that is not initialised and then compared.
- `C74_bad_polygon_refuted` (`io/tetgen_poly_reader.hpp 257-281`): the result of `find` is not compared with `end()` for vertex ids that are not there, and a polygon without vertices moves an iterator past the end.
- `C76_unsupported_refuted` (`io/bnd_reader.hpp 560-563, 677-681`): `bnd_helper` catches all exceptions, also its own for elements that are not supported, and returns `EXIT_SUCCESS`; the rest of the file is missing in the mesh and the caller is not told.
- `C76_plane_refuted` (`io/bnd_reader.hpp 497-519, 867`): every edge of a plane segment is a polygon with two vertices, and `bnd_reader` demands three: no plane file can be read.
- `C76_contact_first_refuted` (`io/bnd_reader.hpp 493, 537`): for each contact the vector of segments loses its last entry, though segments are stored under the number of the element: a contact before a polyhedron makes `domain[i]` out of range, or (C76_lost_example) deletes a polyhedron that has been read.
- `C68_bad_number_refuted` (`io/netgen_reader.hpp 130-131`): vertex numbers are not compared with the number of vertices.
- `C77_positions_refuted` (`io/opendx_writer.hpp 148-149`): the ids of the vertices are written where OpenDX expects their positions among the points.
- `C77_element_type_refuted` (`io/opendx_writer.hpp 53-75, 137`): number of corners and element type follow from the dimension of the points instead of the type of the cells.
- `C77_values_refuted` (`io/opendx_writer.hpp 46`): the difference between a number and its integer part is always less than 1, so that the correction for integers is applied to all values.
- `C77_large_value_refuted` (`io/opendx_writer.hpp 46`): values of 2^63/10000 and more do not fit into a long; the conversion is undefined behaviour.
- `C77_ignored_refuted` (`io/opendx_writer.hpp 170, 225-233`): the warning says that the quantity registered later is ignored, but the first by name is written.
- `C77_no_quantity_refuted` (`io/opendx_writer.hpp 199`): "VisData" is referred to even if there are no data.
- `C79_truncated_refuted`, `C79_unknown_vertex_refuted`, `C79_any_file_refuted` (`io/neper_tess_reader.hpp 78-89, 95-222`): no read is checked: numbers that the file does not have are used uninitialised, unknown vertex ids give default-constructed handles from `operator[]`, and a file without sections is accepted (`good()` right after opening is never false for an empty file).
- `C64_tetrahedra_refuted` (`algorithm/voronoi.hpp 722-789`): the parts of the interface of an edge are added with their absolute values also if the circumcenter of a tetrahedron is outside of it: the boxes of a tetrahedron with a right-angled corner have at least one and a half times its volume.
- `C80_names_refuted`, `C80_file_name_refuted` (`io/vmesh_writer.hpp 62, 81`): an empty string is written for the name of each segment; an output file called "vmesh" gets no extension, because what follows the last dot is the whole name if there is none.

## Axioms each theorem depends on

Output of `Print Assumptions`, grouped.

**Closed under the global context (no axioms)**

`C01_auto_ids_unique`, `C01_ids_never_reused`, `C01_new_vertex_id_fresh`, `C02_explicit_id_collides_refuted`, `C02_explicit_ids_partial`, `C03_boundary_complete`, `C03_vertices_stored`, `C04_no_duplicate_facets`, `C04_shared_facet_identical`, `C05_local_vertex`, `C06_creation_defined`, `C06_insertion_frame`, `C06_only_own_boundary_appears`, `C07_key_order`, `C07_keys_identify_vertex_sets`, `C07_sorted_ids_equal_iff`, `C08_key_map_is_finite_map`, `C09_binomial`, `C09_counts`, `C09_lines_all_pairs`, `C09_simplex_boundary_num`, `C09_triangles_all_triples`, `C10_hex_edge_table_refuted`, `C10_hex_edges_partial`, `C10_hex_face_edge_missing_refuted`, `C10_hex_faces`, `C10_quad_edges`, `C10_quad_vertex_degree`, `C11_element_view`, `C11_equal_ids_refuted`, `C11_erase_count`, `C11_erase_first`, `C11_history`, `C11_insert_unique`, `C11_mesh_view_erase`, `C11_mesh_view_insert`, `C11_order_kept`, `C12_creation_after_erase_refuted`, `C12_erase_element_partial`, `C12_hexahedron_refuted`, `C12_mark_closed_partial`, `C12_mark_exact`, `C13_always_defined`, `C13_creation_after_erase_refuted`, `C13_erase_exact`, `C13_handle_of_last_element_refuted`, `C13_ids_not_reused`, `C13_no_dangling`, `C14_always_defined`, `C14_coboundary_exact`, `C14_coboundary_order`, `C15_irreflexive_symmetric`, `C15_neighbours_exact`, `C16_boundary_exact`, `C16_facet_parity`, `C16_three_cells_refuted`, `C17_always_defined`, `C17_exact_partial`, `C17_first_query`, `C17_none_missed`, `C17_now_or_earlier`, `C17_order_refuted`, `C17_stale_refuted`, `C17_symmetric`, `C18_get_make`, `C18_init_refuted`, `C18_iteration`, `C18_lookup`, `C18_make`, `C18_stable`, `C18_upper_bound`, `C19_clear_refuted`, `C19_decimal_injective`, `C19_make_throws`, `C19_names_partial`, `C19_number_refuted`, `C19_own_name_refuted`, `C19_plain_names`, `C19_same_name_refuted`, `C19_set_name`, `C20_add`, `C20_all_elements`, `C20_always_defined`, `C20_clear_refuted`, `C20_closure`, `C20_create`, `C20_hexahedron_refuted`, `C20_membership`, `C20_never_added_refuted`, `C20_segment_ids`, `C21_element_stays_refuted`, `C21_erase_partial`, `C22_behaves_alike`, `C22_copy`, `C22_queries`, `C23_copy`, `C23_copy_reach`, `C24_clear`, `C24_clear_all_elements_refuted`, `C24_copy_partial`, `C24_copy_segmentation_partial`, `C24_twice_refuted`, `C24_unrecorded_refuted`, `C25_dense_field_default_partial`, `C25_dense_field_default_refuted`, `C25_dense_find_refuted`, `C25_dense_reads_see_last_write`, `C25_dense_unwritten`, `C25_map_at_never_throws_refuted`, `C25_map_field_default_partial`, `C25_map_reads_see_last_write`, `C25_map_unwritten`, `C32_cells`, `C32_only_points_move`, `C38_marking_cells`, `C41_extract_boundary`, `C41_extract_facets_parity`, `C43_segment_to_lower_partial`, `C43_to_higher_reads_destination`, `C43_to_higher_refuted`, `C43_to_lower_partial`, `C46_boundary`, `C46_clear_refuted`, `C46_coboundary`, `C46_neighbors`, `C57_again_refuted`, `C57_no_segments`, `C57_segments`, `C60_attributes`, `C60_bracket_refuted`, `C60_empty_refuted`, `C60_parse`, `C60_progress`, `C61_bad_file_refuted`, `C61_isolated_vertex_refuted`, `C61_merged_points_refuted`, `C61_mesh_partial`, `C61_missing_file_refuted`, `C61_next_id_refuted`, `C61_nonempty_refuted`, `C61_reuse_refuted`, `C61_truncated_refuted`, `C62_lost_cell_refuted`, `C62_segments_partial`, `C62_single_segment_refuted`, `C63_mesh_data_partial`, `C63_segment_data_partial`, `C63_segment_vectors_refuted`, `C67_append_refuted`, `C67_next_id_refuted`, `C67_read`, `C68_bad_number_refuted`, `C68_last_vertex_refuted`, `C68_no_cells_refuted`, `C68_truncated_partial`, `C70_assign_again_refuted`, `C70_copy_partial`, `C70_empty_segment_refuted`, `C70_isolated_vertex_refuted`, `C70_self_refuted`, `C70_unrecorded_refuted`, `C73_read`, `C74_bad_polygon_refuted`, `C74_dimension`, `C74_no_hole_number_refuted`, `C74_truncated`, `C75_read`, `C76_contact_first_refuted`, `C76_dimension`, `C76_not_a_triangle`, `C76_plane_refuted`, `C76_unsupported_refuted`, `C77_plain_history`, `C78_read`, `C79_any_file_refuted`, `C79_truncated_refuted`, `C79_unknown_vertex_refuted`, `C80_contents_partial`, `C80_determined`, `C80_file_name_partial`, `C80_file_name_refuted`, `C80_names_refuted`.

**`ClassicalDedekindReals.sig_forall_dec`, `ClassicalDedekindReals.sig_not_dec`, `Classical_Prop.classic`, `FunctionalExtensionality.functional_extensionality_dep`**

`C54_angle`, `C54_dihedral`, `C54_triangle_sum`, `C55_additive`, `C55_inside`, `C55_order`, `C55_solid_angle`, `C58_back_and_there`, `C58_between`, `C58_negative_radius_refuted`, `C58_operators`, `C58_ranges`, `C58_there_and_back`, `C66_interface_refuted`.

**`ClassicalDedekindReals.sig_forall_dec`, `ClassicalDedekindReals.sig_not_dec`, `FunctionalExtensionality.functional_extensionality_dep`**

`C26_defined_for`, `C26_is_euclidean_volume`, `C26_permutation`, `C26_scaling`, `C26_signed_orientation`, `C26_translation`, `C26_zero_iff_dependent`, `C27_cross_prod`, `C27_norms`, `C28_hexahedron_refuted`, `C28_mesh_volume`, `C28_parallelepiped`, `C28_parallelogram`, `C28_polygon_plane`, `C28_polygon_space_partial`, `C28_polygon_space_refuted`, `C28_polygon_star_shaped`, `C28_quadrilateral`, `C29_small_tetrahedron_refuted`, `C29_tetrahedron`, `C29_tetrahedron_returns_partial`, `C29_triangle_space`, `C30_tetrahedron`, `C30_tetrahedron_exact`, `C30_triangle_space_refuted`, `C31_mesh_centroid`, `C31_mesh_centroid_exists`, `C32_affine_volume`, `C32_mesh_centroid`, `C32_mesh_volume`, `C32_scale_volume`, `C33_children_cover_without_overlap`, `C33_children_share_edges`, `C33_children_vertices`, `C33_edges_split_iff_flagged`, `C33_orientation_kept_and_areas_add_up`, `C34_children_cover_without_overlap`, `C34_children_share_facets`, `C34_children_vertices`, `C34_edges_kept_iff_not_flagged`, `C34_mass_centres_cover_without_overlap`, `C34_volumes_add_up`, `C35_orientation_kept_partial`, `C35_orientation_kept_refuted`, `C36_shared_face_split_identically`, `C37_direction_irrelevant`, `C37_respects_length`, `C37_strict_order`, `C37_total`, `C38_longest_edge_closure_partial`, `C38_zero_length_refuted`, `C39_cell_and_uniform_refine`, `C39_conforming`, `C39_parts_cover`, `C39_refine`, `C40_named_refuted`, `C40_refine_partial`, `C40_unrecorded_refuted`, `C44_default_at_origin_refuted`, `C44_default_elsewhere`, `C44_idempotent`, `C44_merges_or_creates`, `C45_marked_iff_crossing`, `C45_marking_loop`, `C45_new_point`, `C45_vertex_off_hyperplane_refuted`, `C47_inside`, `C47_point_line`, `C47_point_tetrahedron`, `C47_point_triangle`, `C48_end_points`, `C48_lines_partial`, `C48_nearly_parallel_refuted`, `C48_order_refuted`, `C49_convex_quadrilateral`, `C49_hexahedron`, `C49_parallelepiped`, `C49_quadrilateral`, `C50_between_lines_partial`, `C50_first_line_refuted`, `C50_lines`, `C50_mesh_boundary`, `C50_no_lines`, `C50_segment_partial`, `C50_segment_refuted`, `C51_empty_refuted`, `C51_mesh`, `C53_determinant`, `C53_triangle`, `C56_cells`, `C56_element`, `C56_mesh`, `C56_segment`, `C56_segments`, `C64_hexahedra_partial`, `C64_lines`, `C64_parallelepipeds`, `C64_quadrilaterals`, `C64_tetrahedra_partial`, `C64_tetrahedra_refuted`, `C64_triangles`, `C65_boxes`, `C65_delaunay`, `C65_interface`, `C65_no_obtuse_angle`, `C65_tetrahedra`, `C66_hexahedra`, `C66_interface_partial`, `C66_lines`, `C66_quadrilaterals`, `C66_tetrahedra`, `C66_triangles`, `C69_conforming`, `C69_merged_refuted`, `C69_nothing_crosses`, `C69_parts_cover`, `C69_refine_partial`, `C69_segments_partial`, `C71_contacts`, `C71_one_plane_refuted`, `C71_separate_segments`, `C72_file_partial`, `C72_no_segment_refuted`.

**`ClassicalDedekindReals.sig_forall_dec`, `FunctionalExtensionality.functional_extensionality_dep`**

`C27_inner_prod`, `C29_line`, `C29_rectangle_and_cuboid`, `C29_triangle_plane`, `C30_triangle`, `C30_triangle_no_false_negative`, `C30_triangle_plane`, `C31_centroid`, `C32_maps`, `C42_mesh`, `C42_segment`, `C42_segmentation`, `C51_points`, `C52_count`, `C52_orthogonalize`, `C53_line`, `C53_quadrilateral`, `C59_lexicographic`, `C59_order`, `C77_element_type_partial`, `C77_element_type_refuted`, `C77_ignored_refuted`, `C77_large_value_refuted`, `C77_mesh_partial`, `C77_no_quantity_refuted`, `C77_positions_refuted`, `C77_quantity`, `C77_values`, `C77_values_defined`, `C77_values_refuted`, `C77_written`.
