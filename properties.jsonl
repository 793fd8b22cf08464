{"id": "C01", "title": "Automatically assigned element ids are unique and never reused", "statement": "As long as ids are assigned by the library (make_vertex, make_element and the boundary elements these create), any two elements of one type ever created in one mesh have different ids, every id handed out is smaller than id_upper_bound at that moment, and erasing elements never makes an id available again.", "quantifier": "every sequence of element creations and erasures on one mesh, of any length", "why_tests_cant": "Id reuse only shows after particular histories of create/erase; a test fixes one history.", "anchors": ["viennagrid/storage/id_generator.hpp: continuous_id_generator", "viennagrid/storage/inserter.hpp: physical_insert", "viennagrid/mesh/mesh.hpp: id_upper_bound"]}
{"id": "C02", "title": "Explicit ids and automatic ids do not collide", "statement": "After make_vertex_with_id(x), a later make_vertex on the same mesh returns a vertex whose id differs from every id already in the mesh.", "quantifier": "every mix of explicit-id and automatic-id vertex creations", "why_tests_cant": "Collision depends on the relation between the explicit id and the generator state, for arbitrary histories.", "anchors": ["viennagrid/storage/id_generator.hpp: set_max_id", "viennagrid/mesh/element_creation.hpp: make_vertex_with_id"]}
{"id": "C03", "title": "Creating an element creates its whole boundary", "statement": "After make_line/make_triangle/make_tetrahedron/make_quadrilateral/make_hexahedron, every boundary element (of every lower dimension kept by the configuration) of every stored element is itself stored in the mesh, and the k-th boundary element has exactly the vertex set that the reference topology assigns to position k.", "quantifier": "every sequence of creations, every choice of vertices", "why_tests_cant": "Tests look at single cells; sharing of facets between cells created in any order needs induction over the creation history.", "anchors": ["viennagrid/element/element.hpp: boundary_element_layer, insert_callback", "viennagrid/topology/simplex.hpp", "viennagrid/topology/quadrilateral.hpp", "viennagrid/topology/hexahedron.hpp"]}
{"id": "C04", "title": "A facet shared by several cells is stored once", "statement": "No two stored elements of an intermediate dimension (lines, facets) have the same set of vertices; two cells that have a facet with the same vertices refer to the identical facet object, whichever cell was created first and however its vertices were ordered.", "quantifier": "every sequence of cell creations and every vertex ordering", "why_tests_cant": "Depends on all orders of insertion and all vertex permutations.", "anchors": ["viennagrid/storage/hidden_key_map.hpp", "viennagrid/element/element_key.hpp", "viennagrid/storage/inserter.hpp"]}
{"id": "C05", "title": "A cell sees its boundary elements in its own orientation", "statement": "For every cell, every boundary element and every local vertex index i, local_vertex(cell, boundary element, i) is the vertex that the reference topology of the cell puts at index i of that boundary element, also when the boundary element was first created by another cell with another vertex order.", "quantifier": "every history of cell creations, every vertex order with pairwise distinct vertices", "why_tests_cant": "There are n! relative orders for each shared facet and arbitrarily long histories.", "anchors": ["viennagrid/element/element.hpp: set_boundary_element, global_to_local_orientation", "viennagrid/element/element_orientation.hpp", "viennagrid/mesh/mesh.hpp: local_vertex"]}
{"id": "C06", "title": "Insertion does not disturb existing elements", "statement": "Creating an element leaves every element already in the mesh at its handle, with its id, its vertices, its boundary elements and its orientations; ranges grow only by the new elements.", "quantifier": "every state reached by creations and every further creation", "why_tests_cant": "Absence of side effects must hold for all elements in all reachable states.", "anchors": ["viennagrid/storage/inserter.hpp: physical_insert", "viennagrid/storage/container.hpp: insert", "viennagrid/storage/hidden_key_map.hpp: insert"]}
{"id": "C07", "title": "Element keys identify vertex sets", "statement": "Two elements get equal keys iff they have the same vertex ids up to order, and the key comparison is a strict weak order (irreflexive, transitive, total up to key equality), so a key-ordered container finds an element independent of the order in which its vertices were given.", "quantifier": "every pair/triple of vertex id lists of any length", "why_tests_cant": "The ordering laws range over all triples of lists.", "anchors": ["viennagrid/element/element_key.hpp: element_key"]}
{"id": "C08", "title": "The key-indexed container behaves like a finite map that never overwrites", "statement": "Any sequence of insert/find/erase on the container of intermediate elements gives the same answers as a finite map from vertex sets to elements in which inserting a present key changes nothing and reports the stored element.", "quantifier": "every sequence of insert/find/erase", "why_tests_cant": "Refinement over unbounded operation sequences.", "anchors": ["viennagrid/storage/hidden_key_map.hpp"]}
{"id": "C09", "title": "Simplex boundary tables", "statement": "An n-simplex has C(n+1,k+1) boundary k-simplices, as boundary_elements<>::num says; the generated lines and triangles of a simplex are exactly all 2- and 3-element subsets of its vertices, each once.", "quantifier": "every n and k; every number of vertices", "why_tests_cant": "Unbounded n,k.", "anchors": ["viennagrid/topology/simplex.hpp: n_over_k, boundary_elements, boundary_element_generator"]}
{"id": "C10", "title": "Hexahedron and quadrilateral boundary tables are consistent", "statement": "Every edge of every face of a quadrilateral/hexahedron is one of the cell's listed edges, every listed edge lies on the right number of faces (two for the hexahedron), so iterating the edges of a face yields edges of the cell.", "quantifier": "every quadrilateral/hexahedron with pairwise distinct vertices", "why_tests_cant": "Must hold for every labelling by vertices.", "anchors": ["viennagrid/topology/hexahedron.hpp: boundary_element_generator", "viennagrid/topology/quadrilateral.hpp"]}
{"id": "C11", "title": "Views contain each element once and in insertion order", "statement": "insert_unique_handle adds a handle iff it is absent, erase_handle removes exactly one occurrence and keeps the order of the others; element_view(mesh, predicate) contains exactly the elements satisfying the predicate, once each, in mesh order.", "quantifier": "every view content and every sequence of operations", "why_tests_cant": "Unbounded contents and sequences.", "anchors": ["viennagrid/storage/view.hpp", "viennagrid/element/element_view.hpp"]}
{"id": "C12", "title": "Marking for erasure is closed under \"refers to\"", "statement": "mark_erase_elements(mesh, view, e) adds to the view exactly e and every element of higher dimension having e in its boundary, each once, so that erasing the view leaves no element that refers to an erased element.", "quantifier": "every mesh, every element, every earlier content of the view", "why_tests_cant": "Needs quantification over arbitrary meshes.", "anchors": ["viennagrid/mesh/mesh_operations.hpp: mark_referencing_elements", "viennagrid/mesh/element_deletion.hpp: mark_erase_elements"]}
{"id": "C13", "title": "Erasing elements removes exactly the marked elements", "statement": "After erase_elements(mesh, view) the mesh contains exactly the elements not in the view; every surviving element still has its id and is bounded by (the same, by id) vertices and boundary elements.", "quantifier": "every mesh closed under boundary, every reference-closed set of elements to erase, every container order", "why_tests_cant": "Swap-with-last and handle rewriting interact for every position and every set.", "anchors": ["viennagrid/mesh/element_deletion.hpp: erase_functor, switch_handle"]}
{"id": "C14", "title": "Coboundary queries are exact and never stale", "statement": "coboundary_elements<B,C>(mesh, b) returns exactly the elements of type C that have b in their boundary, each once, at any point of any history of creating, erasing, clearing and querying.", "quantifier": "every interleaving of modifications and queries", "why_tests_cant": "Cache invalidation bugs depend on the history.", "anchors": ["viennagrid/mesh/coboundary_iteration.hpp", "viennagrid/mesh/mesh.hpp: is_obsolete, update_change_counter, increment_change_counter"]}
{"id": "C15", "title": "Neighbour queries are exact, symmetric and irreflexive", "statement": "neighbor_elements<T,Connector>(mesh, e) returns exactly the other elements of type T that share a Connector element with e, each once; f is a neighbour of e iff e is a neighbour of f; e is not its own neighbour.", "quantifier": "every mesh and every pair of elements", "why_tests_cant": "Unbounded meshes with any sharing pattern.", "anchors": ["viennagrid/mesh/neighbor_iteration.hpp: create_neighbor_information"]}
{"id": "C16", "title": "Boundary detection", "statement": "is_boundary(mesh, facet) is true iff the facet belongs to exactly one cell, and a lower-dimensional element is on the boundary iff it belongs to a boundary facet, provided no facet belongs to more than two cells; the answer is up to date after any modification.", "quantifier": "every mesh and every history of modifications and queries", "why_tests_cant": "Unbounded meshes and histories.", "anchors": ["viennagrid/algorithm/boundary.hpp"]}
{"id": "C17", "title": "Interface detection", "statement": "is_interface(seg0, seg1, facet) is true iff the facet is a boundary facet of seg0 and lies in seg1, and it does not depend on earlier queries or on the order of the two segments.", "quantifier": "every pair of segments and every history of modifications and queries", "why_tests_cant": "Cached flags: depends on the whole history.", "anchors": ["viennagrid/algorithm/interface.hpp"]}
{"id": "C18", "title": "Segment ids", "statement": "make_segment returns a segment whose id is not used by any other segment of the segmentation; segmentation(id)/get_make_segment(id) return the segment with that id, creating it only when absent; size() counts the distinct ids; iteration visits every segment once in increasing id order.", "quantifier": "every sequence of segment creations and look-ups by id", "why_tests_cant": "Unbounded histories.", "anchors": ["viennagrid/mesh/segmentation.hpp: make_segment, get_make_segment"]}
{"id": "C19", "title": "Segment names", "statement": "Segment names are unique, look-up by name returns the segment carrying that name, set_name either succeeds or throws leaving everything unchanged, and a fresh segment can always be made.", "quantifier": "every sequence of creations, renamings and clears", "why_tests_cant": "Name clashes arise only after special histories.", "anchors": ["viennagrid/mesh/segmentation.hpp: segment_handle::set_name, get_make_segment, make_segment, clear"]}
{"id": "C20", "title": "Adding to a segment adds the closure and membership is consistent", "statement": "After any sequence of add(segment, element), is_in_segment(segment, e) holds iff e is iterated in the segment's range, each segment contains the whole boundary of each of its elements, each element once, and segment_ids(e) lists exactly the segments containing e.", "quantifier": "every sequence of add on any number of segments", "why_tests_cant": "Two independent data structures must agree in every reachable state.", "anchors": ["viennagrid/mesh/segmentation.hpp: add, simple_add, is_in_segment, segment_ids"]}
{"id": "C21", "title": "Erasing from a segment", "statement": "erase(segment, e) removes e and every element of the segment that has e in its boundary, and nothing else, from that segment only.", "quantifier": "every segmentation state and element", "why_tests_cant": "All states.", "anchors": ["viennagrid/mesh/segmentation.hpp: erase, non_recursive_erase_functor"]}
{"id": "C22", "title": "Copying a mesh gives an independent isomorphic mesh", "statement": "A copied/assigned mesh has the same elements (ids, vertices, boundary elements, orientations, order), every handle stored in the copy points into the copy, and later changes of either mesh do not affect the other.", "quantifier": "every mesh state reachable with unique ids", "why_tests_cant": "Handle rewriting must hit each element in every container.", "anchors": ["viennagrid/mesh/mesh.hpp: operator=, fix_handles, copy_element_setters"]}
{"id": "C23", "title": "Filtered copy maps each vertex once", "statement": "copy(src, dst, predicate) yields one cell for each source cell satisfying the predicate, in order, with the vertices being the images under an injective vertex map; exactly the vertices of copied cells are copied, with their coordinates.", "quantifier": "every mesh and predicate", "why_tests_cant": "Unbounded meshes/predicates.", "anchors": ["viennagrid/mesh/mesh_operations.hpp: vertex_copy_map, copy"]}
{"id": "C24", "title": "Copying a segmentation preserves membership", "statement": "After copying a mesh together with its segmentation, every copied cell is in exactly the segments (by id) its source was in.", "quantifier": "every segmentation", "why_tests_cant": "Unbounded segmentations.", "anchors": ["viennagrid/mesh/mesh_operations.hpp: copy", "viennagrid/mesh/segmentation.hpp: copy_segmentation"]}
{"id": "C25", "title": "Accessors and fields: reads see the last write", "statement": "A dense or map accessor/field returns for each element the last value written for that element id; writing for one element never changes the value seen for another; at() throws iff no value exists; find() returns a value iff one exists; a field with default returns the default for elements never written.", "quantifier": "every sequence of reads and writes", "why_tests_cant": "Unbounded histories, resize boundaries.", "anchors": ["viennagrid/accessor.hpp: dense_container_accessor, std_map_accessor, dense_container_field, std_map_field"]}
{"id": "C26", "title": "Spanned volumes", "statement": "spanned_volume of lines, triangles and tetrahedra is non-negative, invariant under any permutation of the points and under translation, zero iff the points are affinely dependent (line/triangle/tetrahedron), and scales with |s|^d.", "quantifier": "all real coordinates", "why_tests_cant": "Continuum of inputs.", "anchors": ["viennagrid/algorithm/spanned_volume.hpp"]}
{"id": "C27", "title": "Vector algebra", "statement": "cross_prod is bilinear, antisymmetric and orthogonal to both factors; inner_prod is symmetric bilinear positive definite; norm_1/norm_2/norm_inf are norms (definite, homogeneous, triangle inequality) in dimensions 1-3.", "quantifier": "all real vectors", "why_tests_cant": "Continuum of inputs.", "anchors": ["viennagrid/algorithm/cross_prod.hpp", "viennagrid/algorithm/inner_prod.hpp", "viennagrid/algorithm/norm.hpp", "viennagrid/point.hpp"]}
{"id": "C28", "title": "Volumes of cells", "statement": "volume of a quadrilateral/hexahedron/polygon equals the sum of the volumes of a decomposition of it; the volume of a mesh is the sum of its cells' volumes.", "quantifier": "all convex quadrilaterals / parallelepipeds / star-shaped polygons with vertices in the reference order", "why_tests_cant": "Continuum of inputs.", "anchors": ["viennagrid/algorithm/volume.hpp"]}
{"id": "C29", "title": "Circumcenters are equidistant", "statement": "circumcenter of a non-degenerate line, triangle (2D,3D) or tetrahedron has equal distance to all vertices and, for the 3D triangle, lies in the plane of the triangle.", "quantifier": "all non-degenerate real coordinates", "why_tests_cant": "Continuum of inputs.", "anchors": ["viennagrid/algorithm/circumcenter.hpp"]}
{"id": "C30", "title": "Point inclusion", "statement": "With tolerance zero, is_inside(triangle in 2D / tetrahedron, p) holds iff p is a convex combination of the vertices.", "quantifier": "all non-degenerate simplices and points", "why_tests_cant": "Continuum of inputs.", "anchors": ["viennagrid/algorithm/inclusion.hpp"]}
{"id": "C31", "title": "Centroids", "statement": "The centroid of a simplex is a convex combination with equal weights, is independent of vertex order and commutes with affine maps; the centroid of a mesh is the volume-weighted mean.", "quantifier": "all real coordinates", "why_tests_cant": "Continuum of inputs.", "anchors": ["viennagrid/algorithm/centroid.hpp"]}
{"id": "C32", "title": "Geometric transforms", "statement": "scale and affine_transform move every vertex by the map and change nothing else; affine_transform multiplies the volume of every cell of full dimension by |det|, scale that of every k-dimensional cell by |factor|^k.", "quantifier": "all meshes, maps", "why_tests_cant": "Continuum of inputs and unbounded meshes.", "anchors": ["viennagrid/algorithm/geometric_transform.hpp"]}
{"id": "C33", "title": "Triangle refinement", "statement": "For every set of flagged edges, refining a triangle yields triangles with the orientation of the parent whose areas add up to it, using exactly the flagged edges' new vertices; each edge of the parent is split iff flagged.", "quantifier": "every triangle, flag set, length order and position of new vertices on edges", "why_tests_cant": "Continuum of inputs; all cases.", "anchors": ["viennagrid/algorithm/detail/refine_tri.hpp"]}
{"id": "C34", "title": "Tetrahedron refinement covers the tetrahedron", "statement": "For every set of flagged edges and every length order, refining a tetrahedron reaches no \"impossible\" branch, produces non-degenerate tetrahedra that do not overlap (volumes add up to the parent), pair-wise share interior faces, and use exactly the new vertices of the flagged edges.", "quantifier": "every tetrahedron, flag set, comparison outcome, positions of the new vertices", "why_tests_cant": "64 flag sets times all orders times a continuum of shapes.", "anchors": ["viennagrid/algorithm/detail/refine_tet.hpp"]}
{"id": "C35", "title": "Tetrahedron refinement preserves orientation", "statement": "Every child tetrahedron has the orientation (sign of signed volume) of its parent.", "quantifier": "every tetrahedron, flag set and length order", "why_tests_cant": "As C34.", "anchors": ["viennagrid/algorithm/detail/refine_tet.hpp: apply3_3"]}
{"id": "C36", "title": "Refinement is conforming across shared faces", "statement": "The subdivision a tetrahedron induces on each of its faces depends only on the face (its flagged edges and the length/id order of its edges), so two tetrahedra sharing a face split it identically and no hanging nodes arise.", "quantifier": "every pair of tetrahedra sharing a face, however their vertices are ordered", "why_tests_cant": "All relative vertex orders, flags, length orders.", "anchors": ["viennagrid/algorithm/detail/refine_tet.hpp", "viennagrid/algorithm/detail/refine_tri.hpp"]}
{"id": "C37", "title": "The length comparison used by refinement is a strict total order", "statement": "stable_line_is_longer does not depend on the order of the end points, is irreflexive, asymmetric and transitive, and decides any two different edges even when their lengths tie.", "quantifier": "all triples of edges", "why_tests_cant": "Transitivity over all triples and ties.", "anchors": ["viennagrid/algorithm/detail/refine_tet.hpp: stable_line_is_longer"]}
{"id": "C38", "title": "Longest-edge closure terminates and is the least closure", "statement": "ensure_longest_edge_refinement terminates; afterwards every cell with a flagged edge has its longest edge flagged, no flag is lost, and only edges forced by this rule are added.", "quantifier": "every mesh and every initial flag set", "why_tests_cant": "Termination and minimality over unbounded meshes.", "anchors": ["viennagrid/algorithm/refine.hpp: ensure_longest_edge_refinement"]}
{"id": "C39", "title": "Mesh refinement creates one vertex per used vertex and flagged edge", "statement": "The refined mesh has exactly one vertex per vertex of the input cells and one per flagged edge, shared by all cells around the edge; the cells are the refinements of the input cells in order.", "quantifier": "every mesh and flag set", "why_tests_cant": "Unbounded meshes.", "anchors": ["viennagrid/algorithm/refine.hpp: refine_impl, simple_refine"]}
{"id": "C40", "title": "Refinement preserves segment membership", "statement": "With a segmentation, every child cell is in exactly the segments its parent cell was in.", "quantifier": "every segmented mesh and flag set", "why_tests_cant": "Unbounded meshes.", "anchors": ["viennagrid/algorithm/refine.hpp: simple_refine"]}
{"id": "C41", "title": "Boundary extraction", "statement": "extract_boundary produces exactly one hull element per boundary facet of the volume mesh, with images of its vertices under an injective vertex map.", "quantifier": "every mesh", "why_tests_cant": "Unbounded meshes.", "anchors": ["viennagrid/algorithm/extract_boundary.hpp"]}
{"id": "C42", "title": "Seed points: one per connected component", "statement": "extract_seed_points yields exactly one point per facet-connected component of the cells, being the centroid of a cell of that component, and terminates.", "quantifier": "every mesh", "why_tests_cant": "Connectivity of unbounded meshes; termination.", "anchors": ["viennagrid/algorithm/extract_seed_points.hpp"]}
{"id": "C43", "title": "Quantity transfer", "statement": "quantity_transfer sets, for each accepted destination element, the average of the values of exactly the accepted adjacent source elements.", "quantifier": "every mesh, filter, averager", "why_tests_cant": "Unbounded meshes, arbitrary functors.", "anchors": ["viennagrid/algorithm/quantity_transfer.hpp"]}
{"id": "C44", "title": "make_unique_vertex merges near points only", "statement": "make_unique_vertex(mesh, p, tol) with tol>0 returns an existing vertex closer than tol iff there is one, otherwise creates exactly one vertex at p; calling it twice with the same p returns the same vertex.", "quantifier": "every mesh and point", "why_tests_cant": "Continuum of inputs and unbounded meshes.", "anchors": ["viennagrid/mesh/element_creation.hpp: make_unique_vertex"]}
{"id": "C45", "title": "Hyperplane refinement leaves no crossing edge", "statement": "After marking edges for a hyperplane, an edge is flagged iff its end points lie strictly on different sides (beyond the tolerance); the new vertex lies on the hyperplane and strictly between the end points.", "quantifier": "all edges and hyperplanes", "why_tests_cant": "Continuum of inputs.", "anchors": ["viennagrid/algorithm/refine.hpp: mark_edges_for_hyperplane_refine"]}
{"id": "C46", "title": "Segment-restricted queries are exact and never stale", "statement": "After any history, coboundary_elements, neighbor_elements and is_boundary asked on a segment see exactly the elements of that segment: coboundary lists the members having the element in their boundary, neighbours the members sharing a connector, boundary the facets of exactly one cell of the segment and what bounds them.", "quantifier": "every history of mesh creations, segment creations, adds, erases and queries", "why_tests_cant": "Unbounded histories; caches with change counters.", "anchors": ["viennagrid/mesh/coboundary_iteration.hpp: coboundary_elements(segment_handle)", "viennagrid/mesh/neighbor_iteration.hpp", "viennagrid/algorithm/boundary.hpp", "viennagrid/mesh/segmentation.hpp: add, erase"]}
{"id": "C47", "title": "Closest point of a line, triangle or tetrahedron", "statement": "closest_points(p, element) returns p itself and a point of the element to which no other point of the element is nearer, for lines, non-degenerate triangles and non-degenerate tetrahedra, in every geometric dimension; for a p in the element the point returned is p.", "quantifier": "every point, every non-degenerate element, every dimension", "why_tests_cant": "Continuum of inputs; minimality ranges over all points of the element.", "anchors": ["viennagrid/algorithm/closest_points.hpp: closest_points_point_line, closest_points_point_triangle, closest_points_point_tetrahedron"]}
{"id": "C48", "title": "Closest points of two lines", "statement": "closest_points(line1, line2) returns a point of the first and a point of the second line such that no other pair is nearer.", "quantifier": "all pairs of lines with different end points, every dimension", "why_tests_cant": "Continuum of inputs; minimality over all pairs.", "anchors": ["viennagrid/algorithm/closest_points.hpp: closest_points_line_line"]}
{"id": "C49", "title": "Closest point of a quadrilateral or hexahedron", "statement": "closest_points(p, element) returns p and a nearest point of the element for convex plane quadrilaterals and parallelepipeds; in general a nearest point of the two triangles or six tetrahedra into which the element is split.", "quantifier": "every point and element whose parts are not degenerate", "why_tests_cant": "Continuum of inputs.", "anchors": ["viennagrid/algorithm/closest_points.hpp: closest_points_impl(hypercube_tag)"]}
{"id": "C50", "title": "Distances", "statement": "closest_points_on_boundary(p, mesh) returns a nearest point of the facets that belong to exactly one cell, whatever queries and changes came before; distance(line, line) and distance(line, segment) are the smallest distances between points of the two.", "quantifier": "every mesh after every history, every point, all lines", "why_tests_cant": "Unbounded meshes and continuum of inputs.", "anchors": ["viennagrid/algorithm/closest_points.hpp: closest_points_on_boundary_point_to_any, closest_points_on_boundary_generic", "viennagrid/algorithm/distance.hpp"]}
{"id": "C51", "title": "Bounding box and mesh size", "statement": "bounding_box of a mesh with vertices is the smallest axis-parallel box containing all vertices, hence all cells; mesh_size is the length of its diagonal.", "quantifier": "every reachable mesh, every dimension, coordinates in the range of the number type", "why_tests_cant": "Unbounded meshes and continuum of coordinates.", "anchors": ["viennagrid/algorithm/geometry.hpp: bounding_box, mesh_size"]}
{"id": "C52", "title": "Orthogonalisation", "statement": "orthogonalize replaces a range of vectors by pairwise orthogonal vectors with the same span; with tolerance zero the number returned is the dimension of that span and the vectors after it are the ones that were dependent.", "quantifier": "every list of vectors, every dimension", "why_tests_cant": "Unbounded lists, continuum of inputs.", "anchors": ["viennagrid/algorithm/geometry.hpp: orthogonalize, orthogonalize_vector"]}
{"id": "C53", "title": "Normal vectors and determinants", "statement": "normal_vector of a line in the plane, a triangle or a plane quadrilateral is orthogonal to all its edges and is not zero unless the element is degenerate; determinant is nonzero exactly if the vectors are linearly independent.", "quantifier": "all elements", "why_tests_cant": "Continuum of inputs.", "anchors": ["viennagrid/algorithm/geometry.hpp: normal_vector, determinant"]}
{"id": "C54", "title": "Angles", "statement": "angle gives the number between 0 and pi whose cosine is the quotient of inner product and lengths, and is not a number exactly for a zero vector; the angles of a triangle sum to pi; the dihedral angle is the angle between the half planes at the common edge.", "quantifier": "all vectors and points, every dimension", "why_tests_cant": "Continuum of inputs.", "anchors": ["viennagrid/algorithm/angle.hpp: angle, dihedral_angle"]}
{"id": "C55", "title": "Solid angles", "statement": "solid_angle of three points seen from a corner is the sum of the dihedral angles at the three edges minus pi, lies between 0 and 2 pi, does not depend on the order of the points, and is additive when the opposite face is cut.", "quantifier": "all non-degenerate tetrahedra", "why_tests_cant": "Continuum of inputs.", "anchors": ["viennagrid/algorithm/angle.hpp: solid_angle"]}
{"id": "C56", "title": "Surfaces", "statement": "The surface of an element is the sum of the volumes of its facets, that of a mesh or segment the sum of the volumes of its boundary facets. The surfaces of the cells add up to the surface of the mesh plus twice its inner facets, and those of the segments to the surface of the mesh plus twice the facets between segments.", "quantifier": "all reachable meshes and segmentations, all points", "why_tests_cant": "Continuum of points and unbounded meshes.", "anchors": ["viennagrid/algorithm/surface.hpp: surface"]}
{"id": "C57", "title": "Boundary extraction with segments", "statement": "extract_boundary of a mesh with a segmentation gives the hull of every segment under the id of the segment: the hull mesh has one copy of each element on the boundary of some segment, and it is in exactly the hull segments of the segments it bounds. Without segments the hull of the mesh is extracted.", "quantifier": "all histories of segmented meshes, all hull element types", "why_tests_cant": "Unbounded meshes and histories.", "anchors": ["viennagrid/algorithm/extract_boundary.hpp: extract_boundary", "viennagrid/mesh/segmentation.hpp: add, clear"]}
{"id": "C58", "title": "Coordinate systems", "statement": "Converting a point between Cartesian and polar, spherical or cylindrical coordinates keeps the point, gives coordinates in the usual ranges, and gives back canonical coordinates; adding, subtracting, negating, stretching and dividing points in these systems does what it does to the Cartesian points.", "quantifier": "all points, all real coordinates", "why_tests_cant": "Continuum of inputs.", "anchors": ["viennagrid/point.hpp: coordinate_converter, cs_base, polar_cs, spherical_cs, cylindrical_cs, spatial_point, to_cartesian"]}
{"id": "C59", "title": "Order of points", "statement": "point_less is the lexicographic order of the coordinates: a strict order in which two points are comparable or equal.", "quantifier": "all points, every dimension", "why_tests_cant": "Continuum of inputs.", "anchors": ["viennagrid/point.hpp: point_less"]}
{"id": "C60", "title": "XML tags are read back as they were written", "statement": "Parsing a tag from a stream skips everything before its opening bracket, returns its name and the names of its attributes in lower case and their values unchanged and in order, and leaves the stream just behind the closing bracket. This holds for all names and for all non-empty values without a quote or a closing bracket. Checking a tag for an attribute throws exactly if it has none of this name, and its value is that of the first one. Parsing any stream ends, either with an exception or having consumed at least one character.", "quantifier": "all texts before and behind the tag, all names, all lists of attributes and values of any length; for progress: all streams", "why_tests_cant": "The parser is a loop over characters with three flags; which texts it mangles depends on the characters of names and values that users choose (file names, quantity names), and tests only read files written by the library.", "anchors": ["viennagrid/io/xml_tag.hpp: xml_tag::parse, check_name, get_value"]}
{"id": "C61", "title": "A mesh written to a VTK file is read back", "statement": "Writing a mesh with vtk_writer produces one file; reading it with vtk_reader into an empty mesh gives exactly one vertex, at the same point up to the rounding of the number format, for every vertex that belongs to a cell, and exactly one cell for every cell, on the corresponding vertices in the same order, and nothing else but the parts of these cells; all cells are in segment 0. Reading never fails on such a file.", "quantifier": "every mesh that the creation functions can build, of every cell type but hexahedra and with any number of cells, every number format that writes a number as one word and reads it back rounded, all file names and all registered quantities", "why_tests_cant": "A round trip goes through text: points, numbering by used vertices, reordering of quadrilaterals, offsets and tags must agree between two independent programs for every mesh; tests compare a few files.", "anchors": ["viennagrid/io/vtk_writer.hpp: vtk_writer::operator(), preparePoints, prepareCells, writePoints, writeCells, writePointData, writeCellData", "viennagrid/io/vtk_reader.hpp: vtk_reader::operator(), parse_vtu_segment, process_pvd, setupVertices, setupCells, setupData", "viennagrid/io/vtk_common.hpp: ELEMENT_TAG_TO_VTK_TYPE, viennagrid_to_vtk_orientations"]}
{"id": "C62", "title": "A segmented mesh written to VTK files is read back with its segments", "statement": "Writing a mesh with at least two segments produces one file per segment and a collection file, with different names; reading the collection into an empty mesh gives the vertices and cells of the segments once each, although a cell in several segments is written several times, and the same segments by id: a cell is in the segment with an id iff the original is, and every segment contains its cells and their parts and nothing else.", "quantifier": "every mesh with segmentation that the API can build (cells other than hexahedra, any number of segments, overlapping or not), every sane number format, all names without quote and closing bracket, all quantities", "why_tests_cant": "The files of the segments are read one after the other and glued by points and by cell keys; whether the gluing restores the mesh depends on all segments together, and on the ids that users choose.", "anchors": ["viennagrid/io/vtk_writer.hpp: vtk_writer::operator(), preparePoints, prepareCells, writePoints, writeCells, writePointData, writeCellData", "viennagrid/io/vtk_reader.hpp: vtk_reader::operator(), parse_vtu_segment, process_pvd, setupVertices, setupCells, setupData", "viennagrid/io/vtk_common.hpp: ELEMENT_TAG_TO_VTK_TYPE, viennagrid_to_vtk_orientations"]}
{"id": "C63", "title": "Quantities written to VTK files are read back", "statement": "Every scalar and vector quantity on vertices or cells that was registered with the writer is delivered by the reader under the same name: one assignment for every used vertex or cell of the file, of the rounded value, to the vertex or cell that was read for it, and nothing else is delivered. With segments, every segment gets the quantities of the mesh and its own.", "quantifier": "all meshes and segmentations as in C61 and C62, all lists of quantities with one or three components whose names are non-empty without quote and closing bracket", "why_tests_cant": "Values are matched with elements only by their place in the file, across two numberings and, for segments, a local and a global one.", "anchors": ["viennagrid/io/vtk_writer.hpp: vtk_writer::operator(), preparePoints, prepareCells, writePoints, writeCells, writePointData, writeCellData", "viennagrid/io/vtk_reader.hpp: vtk_reader::operator(), parse_vtu_segment, process_pvd, setupVertices, setupCells, setupData", "viennagrid/io/vtk_common.hpp: ELEMENT_TAG_TO_VTK_TYPE, viennagrid_to_vtk_orientations"]}
{"id": "C64", "title": "The Voronoi boxes cover the mesh", "statement": "apply_voronoi adds to the box volumes of the vertices, and to those of the edges, quantities that both add up to the total volume of the cells: for lines, for non-degenerate triangles in the plane even when circumcenters lie outside their triangles, for convex quadrilaterals, and for hexahedra that are parallelepipeds. The mesh is not changed.", "quantifier": "every mesh that the creation functions can build, any number of cells and any points (for triangles: none degenerate), any previous contents of the accessors and caches", "why_tests_cant": "The box of a vertex is collected from pieces of many cells, with special cases for obtuse triangles and neighbours; that the pieces add up needs the geometry of every triangle.", "anchors": ["viennagrid/algorithm/voronoi.hpp: apply_voronoi, detail::write_voronoi_info (all five overloads), detail::voronoi_unique_quantity_update, detail::voronoi_point_to_local_coordinates, detail::voronoi_line_intersection", "viennagrid/algorithm/circumcenter.hpp: circumcenter", "viennagrid/algorithm/spanned_volume.hpp: spanned_volume"]}
{"id": "C65", "title": "What the Voronoi quantities are", "statement": "After apply_voronoi on triangles the interface of an edge is the sum of the signed distances of the circumcenters of its triangles from the edge (negative if the edge separates the circumcenter from the triangle; nothing if in this case the edge has no second triangle); if the edge has two triangles, one on each side, and the circumcircle of the first does not contain the opposite point of the second, this is the distance of the circumcenters. If no circumcenter is behind a boundary edge of its triangle (in particular if no angle is obtuse), the box of an edge is interface times length over two and the box of a vertex is half of the boxes of its edges. For tetrahedra the box of an edge is interface times length over three and the box of a vertex half of the boxes of its edges.", "quantifier": "every mesh of non-degenerate triangles in the plane (tetrahedra: every mesh for which the call returns) and every edge and vertex, any contents of the accessors before", "why_tests_cant": "The code distinguishes whether the circumcenter is inside, which edge it is behind, and whether there is a neighbour; the claim is about all configurations of all triangles at an edge.", "anchors": ["viennagrid/algorithm/voronoi.hpp: apply_voronoi, detail::write_voronoi_info (all five overloads), detail::voronoi_unique_quantity_update, detail::voronoi_point_to_local_coordinates, detail::voronoi_line_intersection", "viennagrid/algorithm/circumcenter.hpp: circumcenter", "viennagrid/algorithm/spanned_volume.hpp: spanned_volume"]}
{"id": "C66", "title": "The contributions of the cells add up to the Voronoi quantities", "statement": "The lists of contributions per cell that apply_voronoi fills next to each quantity add up to that quantity, name only cells of the mesh, and name each cell at most once (triangles and tetrahedra).", "quantifier": "every mesh that the creation functions can build and any accessors whose contributions add up (lines and tetrahedra: fresh ones)", "why_tests_cant": "Quantity and contributions are updated by different statements, some of which depend on whether there is a neighbour; a consistent result needs all of them to agree for all meshes.", "anchors": ["viennagrid/algorithm/voronoi.hpp: apply_voronoi, detail::write_voronoi_info (all five overloads), detail::voronoi_unique_quantity_update, detail::voronoi_point_to_local_coordinates, detail::voronoi_line_intersection", "viennagrid/algorithm/circumcenter.hpp: circumcenter", "viennagrid/algorithm/spanned_volume.hpp: spanned_volume"]}
{"id": "C67", "title": "A Netgen file is read as the mesh it describes", "statement": "netgen_reader, given an empty mesh and a file with the number of vertices, their coordinates, the number of cells and for each cell a segment number and its vertices counted from one, builds exactly this mesh: the vertices with their points in the order of the file with ids 0, 1, \u2026, the cells in the order of the file on the right vertices with ids 0, 1, \u2026, each in exactly the segment named for it and in no other, and no other segments. It does not matter how the words are separated or what follows. All the boundary elements and indices are consistent, as after creating the elements one by one.", "quantifier": "every file text that describes a mesh: any number of vertices, cells and segments, any coordinates with a text, any blanks; every cell type but the hexahedron", "why_tests_cant": "Vertices are numbered by a counter and cells refer to them by position plus one; a test reads one or two files with one layout.", "anchors": ["viennagrid/io/netgen_reader.hpp: netgen_reader::operator()", "viennagrid/mesh/element_creation.hpp: make_vertex_with_id, make_element_with_id", "viennagrid/mesh/segmentation.hpp: operator[], get_make_segment"]}
{"id": "C68", "title": "A malformed Netgen file is rejected", "statement": "netgen_reader throws bad_file_format_exception if the file ends before everything announced in it has been read, and does not build a mesh that the file does not describe.", "quantifier": "every file that describes a mesh and every place at which it is cut off; every file in which a cell names a vertex that does not exist", "why_tests_cant": "The place at which a file is cut off is arbitrary, and what happens depends on the blanks at its end.", "anchors": ["viennagrid/io/netgen_reader.hpp: netgen_reader::operator()", "viennagrid/mesh/element_creation.hpp: make_vertex_with_id, make_element_with_id", "viennagrid/mesh/segmentation.hpp: operator[], get_make_segment"]}
{"id": "C69", "title": "Refinement along a hyperplane leaves no cell crossing it", "statement": "hyperplane_refine splits exactly the lines whose end points lie on different sides of the hyperplane, both beyond the tolerance, each at the point where the hyperplane cuts it; afterwards no cell that it made crosses the hyperplane by the same criterion. The parts of each cell fill it, lie inside it and do not overlap, and the parts of neighbouring cells fit together at the common face, without hanging vertices. Cells and vertices that were in the destination stay. With segments, every part is in exactly the segments of the cell it comes from.", "quantifier": "every reachable mesh of triangles or tetrahedra that stores its lines, in any dimension, every hyperplane, normal and tolerance, every destination mesh and segmentation", "why_tests_cant": "Which lines cross and where is a matter of real geometry; each cell is cut by one of many patterns, at points at any position; neighbours must agree on all of them.", "anchors": ["viennagrid/algorithm/refine.hpp: mark_edges_for_hyperplane_refine, hyperplane_refine, simple_refine", "viennagrid/mesh/element_creation.hpp: make_unique_vertex"]}
{"id": "C70", "title": "Copying or assigning a segmented mesh gives the same mesh and segments", "statement": "A segmented_mesh made as a copy of another, or assigned from it, has the same cells on vertices with the same points, each in the segments with the same ids; the source and all other objects are unchanged; assigning an object to itself changes nothing.", "quantifier": "every segmented mesh reached by any history of creations and segment operations; every pair of objects, also the same one twice", "why_tests_cant": "The destination is cleared before the source is read, and segments are made again by id one cell at a time; a test copies one mesh once.", "anchors": ["viennagrid/mesh/segmented_mesh.hpp: segmented_mesh, operator=, clear", "viennagrid/mesh/mesh_operations.hpp: copy(mesh, segmentation, mesh, segmentation, functor)"]}
{"id": "C71", "title": "The contacts of a Comsol file are the flat patches of the segment hulls", "statement": "The contact indices which the Comsol writer computes are -1 exactly for the triangles on no hull of a segment, are 0, 1, ..., n-1 without gaps for the others, and agree for two triangles iff a chain of triangles joins them in which each two neighbours have a common vertex, are in the same segments, have that same segment as the first on whose hull they are, and are coplanar up to the tolerance. For segments that do not overlap the condition on the first segment follows from the others. Computing them changes neither mesh nor segments.", "quantifier": "every tetrahedral mesh with any segmentation whose triangles have at most two tetrahedra of a segment", "why_tests_cant": "The marking is a recursion over neighbours whose depth and order depend on the mesh; that it reaches the whole patch, ends, and never joins two patches or splits one is about all meshes.", "anchors": ["viennagrid/io/mphtxt_writer.hpp: mark_planar_neighbors, mark_segment_hull_contacts", "viennagrid/mesh/segmentation.hpp: segment_info_t::is_equal"]}
{"id": "C72", "title": "A Comsol file holds the mesh and the hulls of its segments", "statement": "Written with the Comsol writer, a segmented tetrahedral mesh gives a file with the points of all vertices in order, all tetrahedra in order by the positions of their vertices with the number of a segment they are in plus one (0 for none), and every triangle on the hull of a segment exactly once with its contact and the numbers of the segments on its two sides plus one (0 for none).", "quantifier": "every tetrahedral mesh with any segmentation whose triangles have at most two tetrahedra of a segment", "why_tests_cant": "Positions are looked up by id, triangles are collected in a map over all segments, and the side is decided by the centres of triangle and tetrahedron; a test reads one file.", "anchors": ["viennagrid/io/mphtxt_writer.hpp: mphtxt_writer::operator()"]}
{"id": "C73", "title": "A .poly file is read as the piecewise linear complexes it describes", "statement": "Read into an empty mesh, a TetGen .poly file gives the vertices of the file in order with the ids of the file, exactly one line for each side of a polygon (however many polygons share it and in whichever direction) and no other, and one PLC per facet with the lines of its polygons, all vertices of its polygons, each once, and its hole points; the hole points and the seed points of the file are returned. Comments, empty lines, leading spaces, attributes and markers do not matter, and the last two parts may be missing.", "quantifier": "every file, with any number of vertices, facets, polygons, holes and regions, and every layout of the lines", "why_tests_cant": "The file is of any size and layout; sides are shared among polygons and facets and found again by the ids of their vertices.", "anchors": ["viennagrid/io/tetgen_poly_reader.hpp: get_valid_line, tetgen_poly_reader::operator()", "viennagrid/mesh/element_creation.hpp: make_plc, make_line, make_vertex_with_id", "viennagrid/topology/plc.hpp: boundary_element_generator", "viennagrid/storage/view.hpp: insert_unique_handle"]}
{"id": "C74", "title": "Malformed .poly files are rejected", "statement": "A .poly file which ends too early, has points of another dimension, or names vertices that are not there is rejected with an exception, and one in which optional numbers are left out is read.", "quantifier": "every file that is malformed in one of these ways, at any place", "why_tests_cant": "The reader tests each number or the end of the file in some places and not in others; that covers files cut off at every line.", "anchors": ["viennagrid/io/tetgen_poly_reader.hpp: tetgen_poly_reader::operator()"]}
{"id": "C75", "title": "A .bnd file is read as the surfaces it describes", "statement": "Read into an empty mesh of triangles, the sections of a .bnd file whose polyhedra have triangular faces give one vertex for each point number that a face uses, at this point, and no others; one triangle for each set of three corners of a face, however many polyhedra share the face and in whichever direction it is traversed; and one segment per polyhedron, numbered from 0 in the order of the file, with exactly its triangles and their boundaries.", "quantifier": "every list of points, edges, faces and elements whose polyhedra have triangular faces, with any number of contacts at the end", "why_tests_cant": "Faces and edges are shared, referred to by number in both directions, and identified again by their sorted corners; that must hold for all such files.", "anchors": ["viennagrid/io/bnd_reader.hpp: bnd_helper::operator(), map, bnd_reader::operator()"]}
{"id": "C76", "title": "Malformed .bnd files are rejected", "statement": "A .bnd file with a face that is not a triangle, of another dimension than the mesh, or with elements that are not supported is rejected with an exception; plane files and files with contacts at any place are read.", "quantifier": "every list of sections with such an element or face at any place", "why_tests_cant": "The sizes of the vectors change with the kinds of the elements so far and exceptions of the parser are caught; this depends on the order of the elements in the file.", "anchors": ["viennagrid/io/bnd_reader.hpp: bnd_helper::operator(), bnd_reader::operator()"]}
{"id": "C77", "title": "An OpenDX file shows the mesh and the registered quantity", "statement": "The OpenDX writer writes the points of all vertices in order, every cell as the positions of its vertices in that list with the right type and number of corners, and one registered quantity, on vertices before cells, with the right number for each vertex or cell; what the file refers to is in it.", "quantifier": "every mesh made by creating, erasing and clearing, every sequence of registrations of quantities with any names, every value", "why_tests_cant": "Ids and positions agree in meshes that have only grown and differ after other histories; names are ordered; every real number goes through the correction of the values.", "anchors": ["viennagrid/io/opendx_writer.hpp: DXfixer, DXHelper, opendx_writer::operator(), add_scalar_data_on_vertices, add_scalar_data_on_cells"]}
{"id": "C78", "title": "A Neper .tess file is read as what it describes", "statement": "Reading a .tess file into an empty mesh gives the vertices of the file in order with their points, one line for each side of a face, shared between faces, one PLC for each face with the sides of the face, and the points and numbers of the polyhedra as seed points, whatever the ids, the other lines of the file and the other words in its lines.", "quantifier": "every text with a vertex, a face and a polyhedron section of any sizes, every choice of different ids, every number of vertices in a face", "why_tests_cant": "Ids are arbitrary and looked up in tables, sides are shared in both directions, and the text around the numbers is free; examples cover a few files.", "anchors": ["viennagrid/io/neper_tess_reader.hpp: neper_tess_reader::operator()"]}
{"id": "C79", "title": "A .tess file that is not complete is rejected", "statement": "A .tess file that ends too early, that refers to vertices that are not there, or that is not a .tess file at all, is rejected with an exception.", "quantifier": "every text, every number of missing entries", "why_tests_cant": "A test only shows one damaged file, and what is read instead of a missing number is accidental.", "anchors": ["viennagrid/io/neper_tess_reader.hpp: neper_tess_reader::operator()"]}
{"id": "C80", "title": "A ViennaMesh file summarises the mesh", "statement": "The .vmesh file written for a mesh with a segmentation is an XML document with the name of the input file, the dimension, the type of the cells, the numbers of vertices and cells of the mesh and, for every segment by increasing id, its id, its name and its numbers of vertices and cells; all of this can be recovered from the text; and the name of the file ends with .vmesh.", "quantifier": "every history of a mesh with segments, every input and output file name, every dimension", "why_tests_cant": "The file depends on the whole mesh, all segments and arbitrary names; that no two different contents give the same text cannot be tested.", "anchors": ["viennagrid/io/vmesh_writer.hpp: vmesh_writer::operator()"]}
