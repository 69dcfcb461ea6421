{"id": "C01", "title": "Arena ids never alias and are stable", "statement": "After any history of push, allocate/set, in-place update and delete on a DeletableVector: reading an id returns the value most recently written under that id, no operation changes the value stored under another live id, a newly handed-out id was not live, and every live element reports the id under which it is stored.", "quantifier": "every finite history of arena operations (any length, any interleaving of deletes and re-use)", "why_tests_cant": "ids are recycled through a free list, so aliasing depends on the whole delete/insert history, which is unbounded", "anchors": ["src/util/deletable.rs: DeletableVector::{push,allocate,set,delete_internal,get,get_mut}"]}
{"id": "C02", "title": "Arena counting agrees with iteration", "statement": "After any history, len() equals the number of elements yielded by iter() and the number of ids for which has() is true; capacity never shrinks and does not grow while a deleted slot is available.", "quantifier": "every finite history of arena operations", "why_tests_cant": "the count is computed as data.len - deleted.len; it is only right if the free list never contains duplicates or live slots, a property of all histories", "anchors": ["src/util/deletable.rs: DeletableVector::{len,iter,has,capacity,push,allocate}"]}
{"id": "C03", "title": "Every mesh built through the builder API is consistent", "statement": "Starting from the empty mesh, after any sequence of builder calls made in a debug build that does not panic (and whose documented argument preconditions hold), the half-edge structure is consistent: twins are mutual and distinct, next/prev are mutually inverse permutations, all ids point to live elements, the target of a half-edge is the origin of its twin, all half-edges of one boundary loop carry the same face, each face id is carried by exactly the loop of its representative edge, and each vertex representative is an outgoing half-edge.", "quantifier": "every finite sequence of builder operations with arbitrary arguments", "why_tests_cant": "a single mis-wired pointer may only surface after a long sequence; the number of op sequences is infinite", "anchors": ["src/halfedge/mesh/builder/halfedge.rs", "src/halfedge/mesh/builder/builder.rs", "src/mesh/mesh/builder.rs: MeshBuilder", "src/halfedge/mesh/mod.rs"]}
{"id": "C04", "title": "check() is sound and complete for its documented invariants", "statement": "MeshChecker::check returns Ok exactly when the mesh satisfies the invariants it documents, it terminates on every mesh, it never panics on a consistent mesh, and it never rejects a consistent mesh whose faces all have at least three edges and whose edges all have a face on at least one side.", "quantifier": "every mesh state", "why_tests_cant": "the checker is the oracle used by tests themselves, so tests cannot establish that it misses nothing or raises no false alarm", "anchors": ["src/halfedge/mesh/check.rs: check and helpers"]}
{"id": "C05", "title": "Face traversal visits the boundary loop exactly once", "statement": "On every consistent mesh, iterating forward (or backward) from a half-edge terminates, yields each half-edge of its boundary loop exactly once starting with that half-edge, and the backward order is the reverse order; num_edges of a face is the length of that loop.", "quantifier": "every consistent mesh and every half-edge", "why_tests_cant": "termination and exactly-once need the permutation property of next for arbitrarily large loops", "anchors": ["src/halfedge/edge/iterator.rs", "src/halfedge/face/mod.rs: num_edges, edges, vertices", "src/halfedge/edge/halfedge.rs: edges_from, edges_back_from"]}
{"id": "C06", "title": "Vertex wheel traversal yields exactly the outgoing half-edges", "statement": "On every mesh reachable through the builder, iterating the edges around a vertex terminates and yields exactly the half-edges whose origin is that vertex, each once; degree equals their number.", "quantifier": "every reachable mesh and every vertex", "why_tests_cant": "requires that all outgoing half-edges lie on a single rotation orbit, an invariant of the entire construction history", "anchors": ["src/halfedge/vertex/iterator.rs", "src/halfedge/vertex/basics.rs: edges_out, degree"]}
{"id": "C07", "title": "shared_edge finds the half-edge between two vertices iff it exists", "statement": "On every reachable mesh shared_edge(v,w) returns Some(e) only for a half-edge from v to w and returns None only if no such half-edge exists.", "quantifier": "every reachable mesh and every pair of vertices", "why_tests_cant": "completeness depends on the vertex wheel being complete in every reachable state", "anchors": ["src/halfedge/mesh/basics.rs: shared_edge, shared_edge_id"]}
{"id": "C08", "title": "add_vertex_via_edge extends a boundary loop by one dangling edge", "statement": "Given consecutive boundary half-edges input,output, add_vertex_via_edge returns a fresh vertex and two fresh half-edges, replaces the corner input,output in their loop by input,e1,e2,output, leaves every other loop, every face and every existing vertex and payload unchanged, and keeps the mesh consistent.", "quantifier": "every consistent mesh and every pair of consecutive boundary half-edges", "why_tests_cant": "frame conditions (nothing else changes) range over all other elements of arbitrary meshes", "anchors": ["src/halfedge/mesh/builder/halfedge.rs: add_vertex_via_edge, insert_edge_no_update_no_check"]}
{"id": "C09", "title": "insert_edge splits a loop into exactly two loops", "statement": "For two distinct boundary half-edges inside, outside on one loop, insert_edge adds a fresh twin pair, splits that loop into exactly two loops (the stretch after outside up to inside plus e1, and the stretch after inside up to outside plus e2), and leaves all other loops, faces, vertices unchanged; on two different loops it joins them into one.", "quantifier": "every consistent mesh and every pair of distinct boundary half-edges", "why_tests_cant": "loop lengths and the positions of both half-edges are unbounded", "anchors": ["src/halfedge/mesh/builder/halfedge.rs: insert_edge"]}
{"id": "C10", "title": "close_hole/close_face fill exactly one loop", "statement": "close_hole(e) on a boundary half-edge creates one fresh face whose boundary is exactly the loop of e and changes nothing else but the face labels of that loop; close_face does the same for the loop of inside after inserting the edge; in a debug build they panic if any half-edge of the loop already belongs to a face.", "quantifier": "every consistent mesh and every half-edge", "why_tests_cant": "set_face walks an unbounded loop; tests only see fixed sizes", "anchors": ["src/halfedge/mesh/builder/builder.rs: close_hole", "src/halfedge/mesh/builder/halfedge.rs: close_face, close_face_default, close_face_vertices"]}
{"id": "C11", "title": "remove_face is the inverse of close_hole", "statement": "remove_face(f) makes exactly the loop of f a boundary loop, deletes exactly f, returns its payload; close_hole followed by remove_face of the new face restores all half-edges, vertices and faces, and remove_face followed by close_hole on an edge of the same loop re-uses the same face id.", "quantifier": "every consistent mesh and face", "why_tests_cant": "face-id re-use through the free list and loop length are unbounded", "anchors": ["src/halfedge/mesh/builder/builder.rs: remove_face, close_hole"]}
{"id": "C12", "title": "insert_edge_between connects two vertices consistently", "statement": "In a debug build, insert_edge_between(v,w) on two distinct vertices either panics or adds exactly one twin pair between v and w and keeps the mesh consistent, for isolated and boundary vertices, in the same or in different components.", "quantifier": "every reachable mesh and pair of distinct vertices", "why_tests_cant": "four combinations of isolated/attached endpoints times arbitrary surrounding meshes", "anchors": ["src/halfedge/mesh/builder/halfedge.rs: insert_edge_between", "src/mesh/vertex/halfedge.rs"]}
{"id": "C13", "title": "Flipping a half-edge pair swaps its direction and nothing else", "statement": "HalfEdge::flip exchanges the roles of a half-edge and its twin: afterwards e runs from the old target to the old origin inside the old twin's loop and vice versa; the mesh stays consistent and flipping twice restores all half-edges; flip() on a mesh reverses every edge and flips every loop to the twin ids.", "quantifier": "every consistent mesh and every half-edge", "why_tests_cant": "depends on the local configuration (dangling edges, same-face twins, loops) in arbitrary meshes", "anchors": ["src/halfedge/edge/halfedge.rs: flip", "src/mesh/mesh/halfedge.rs: flip, flipped"]}
{"id": "C14", "title": "insert_vertices_into_edge divides an edge whose origin has two edges", "statement": "If exactly one other half-edge leaves the origin of e, insert_vertices_into_edge(e, vs) replaces the edge of e by a chain of |vs|+1 edges through the new vertices, keeps both loops and their faces and keeps the mesh consistent. For every other origin the intended claim is false: inserting at least one vertex leaves an inconsistent mesh.", "quantifier": "every consistent mesh, half-edge and list of new vertices", "why_tests_cant": "the vertex degree at the origin and the number of inserted vertices are unbounded", "anchors": ["src/halfedge/mesh/builder/builder.rs: insert_vertices_into_edge", "src/mesh/mesh/basics.rs: flatten_curved_edges"]}
{"id": "C15", "title": "import_mesh copies a mesh isomorphically, or panics", "statement": "If every vertex has an edge and no half-edge is its own successor, import_mesh yields a consistent mesh with dense ids in the old order that is isomorphic to the source (same incidences, payloads mapped); on every other consistent source it panics. The intended claims, that it never panics on a consistent source and that it preserves curved faces, are false.", "quantifier": "every consistent source mesh (with deleted faces, isolated vertices, ...)", "why_tests_cant": "id remapping over arbitrary sparse arenas", "anchors": ["src/halfedge/mesh/builder/halfedge.rs: import_mesh"]}
{"id": "C16", "title": "insert_path, insert_loop and insert_polygon have the documented shape for every n; insert_dihedron never works", "statement": "For any list of n>=3 vertex payloads, on top of any consistent mesh, insert_loop creates n vertices with those payloads in order and n edges forming two opposite loops of length n; insert_polygon additionally has exactly one face and returns a boundary half-edge from the first to the second vertex; insert_path (n>=2) creates an open path and returns the half-edges leading to its first and last vertex, and panics for fewer payloads. insert_dihedron, intended to have two faces and no boundary, panics in debug builds for every payload list and leaves a boundary in release builds.", "quantifier": "every n and payload list, on top of any consistent mesh", "why_tests_cant": "n is unbounded and the mesh to which it is added is arbitrary", "anchors": ["src/halfedge/mesh/builder/builder.rs: insert_path, insert_loop", "src/halfedge/primitives/mod.rs: insert_polygon, insert_dihedron"]}
{"id": "C17", "title": "fill_hole_apex closes a hole of n edges with exactly n triangles", "statement": "On a boundary loop of n half-edges with distinct vertices fill_hole_apex adds one vertex (the apex) of degree n and n triangular faces, leaves no boundary half-edge on that loop and keeps the mesh consistent. If the loop visits its first vertex twice this is false.", "quantifier": "every consistent mesh and boundary loop of any length n>=3", "why_tests_cant": "n and the rest of the mesh are unbounded", "anchors": ["src/operations/extrude.rs: fill_hole_apex"]}
{"id": "C18", "title": "loft_polygon_back/extrude produce a ring of n quads", "statement": "Lofting a boundary loop of n half-edges with n new vertices (quads) creates n quad faces and returns a half-edge of a boundary loop of length n running through exactly the new vertices; extrude additionally caps it, so that the loop is completely closed by n+1 faces.", "quantifier": "every consistent mesh, loop length n>=3, payload list", "why_tests_cant": "n and the rest of the mesh are unbounded", "anchors": ["src/operations/loft.rs: loft_polygon_back", "src/operations/extrude.rs: extrude"]}
{"id": "C19", "title": "loft_tri produces a ring of 2n triangles", "statement": "Lofting a boundary loop of n half-edges with n new vertices through loft_tri_closed creates 2n triangles and a new boundary loop of length n.", "quantifier": "every consistent mesh, loop length n, payload list", "why_tests_cant": "n and the rest of the mesh are unbounded", "anchors": ["src/operations/loft.rs: loft_tri, loft_tri_closed, loft_tri_back, loft_tri_back_closed"]}
{"id": "C20", "title": "Solids are the expected closed face sets for every size", "statement": "For all n>=3 (and rings r>=2) pyramid, prism, frustum, cuboid, antiprism_iter, bipyramid (octahedron), icosahedron and uv_sphere are consistent closed meshes with exactly the expected points and faces, hence with the documented numbers of vertices, edges and faces (V - E + F = 2).", "quantifier": "all n (and r)", "why_tests_cant": "infinitely many sizes", "anchors": ["src/primitives/prismatoid.rs", "src/primitives/sphere.rs: uv_sphere"]}
{"id": "C21", "title": "loop_subdivision cuts every triangle into four", "statement": "Loop subdivision of a closed consistent triangle mesh without self-loops yields a consistent closed triangle mesh with one new vertex per edge, carrying the interpolated payload, and with three corner triangles and a central one for every old triangle: 4F faces, V+E vertices, 4E edges. subdivision_frequency(b) with b = 2^k does this k times and yields b*b*F faces; every other description panics. With the linear interpolator every new vertex is in the middle of its edge. With a boundary or a self-loop the result is inconsistent.", "quantifier": "every closed triangle mesh", "why_tests_cant": "mesh size unbounded; intermediate states are inconsistent by design", "anchors": ["src/operations/subdivision.rs", "src/halfedge/mesh/builder/semi.rs: subdivide_unsafe, subdivide_unsafe_try_fixup"]}
{"id": "C22", "title": "shortest_path returns a shortest path", "statement": "shortest_path(v,w) returns a path from v to w along mesh edges of minimal length, and None exactly when w is unreachable from v; it always terminates.", "quantifier": "every graph (mesh) and pair of vertices", "why_tests_cant": "BFS optimality over all graphs", "anchors": ["src/mesh/mesh/topology.rs: shortest_path"]}
{"id": "C23", "title": "Adjacency matrix is symmetric and the Laplacian has zero row sums", "statement": "On every reachable mesh with simple edges, adjacency_matrix is symmetric with ones exactly at adjacent vertex pairs and zero diagonal, degree_matrix is diagonal with the vertex degrees and every row of the Laplacian sums to zero.", "quantifier": "every reachable mesh", "why_tests_cant": "spectral facts used by callers need all entries for arbitrary sizes", "anchors": ["src/mesh/mesh/netsci.rs"]}
{"id": "C24", "title": "is_isomorphic only accepts isomorphic meshes", "statement": "If the first mesh has no parallel edges and is_isomorphic_by returns Equivalent then the found vertex map is a bijection that preserves and reflects adjacency and maps face boundaries bijectively to face boundaries up to rotation. With parallel edges (accepted by release builds) this is false.", "quantifier": "every pair of meshes", "why_tests_cant": "soundness of an equality test is exactly what cannot be sampled", "anchors": ["src/mesh/mesh/basics.rs: is_isomorphic, is_isomorphic_by, find_payload_isomorphism"]}
{"id": "C25", "title": "is_trivially_isomorphic compares ids and end points, but not successors", "statement": "If is_trivially_isomorphic returns Equivalent, both meshes have the same live ids, every half-edge has the same origin and target (and, without parallel edges, the same twin) in both, and the second mesh's representative of a face lies on that face in the first. The intended stronger claim, equal connectivity, is false: the second mesh's connectivity is looked up in the first one, so two meshes with different successors are accepted.", "quantifier": "every pair of meshes", "why_tests_cant": "an unsound equality check passes every positive test", "anchors": ["src/mesh/mesh/basics.rs: is_trivially_isomorphic_ex, is_isomorphic_pos"]}
{"id": "C26", "title": "equal_up_to_rotation decides equality up to rotation", "statement": "equal_up_to_rotation(a,b) never panics and is true exactly if a is not empty and b is a rotation of a (for two empty lists it answers false).", "quantifier": "all pairs of lists", "why_tests_cant": "all lengths and repeated elements", "anchors": ["src/mesh/mesh/basics.rs: equal_up_to_rotation"]}
{"id": "C27", "title": "Fan triangulation covers the polygon", "statement": "fan_triangulation of an n-gon emits exactly n-2 triangles whose oriented boundary sums to the polygon boundary; hence their signed areas sum to the polygon's signed area.", "quantifier": "every n>=3 and vertex list", "why_tests_cant": "all n", "anchors": ["src/tesselate/convex.rs: fan_triangulation"]}
{"id": "C28", "title": "Quad triangulation covers the quad; which diagonal it uses", "statement": "min_weight_quad emits two triangles covering the quad with the orientation of the quad, using the diagonal 0-2 or 1-3 according to an exactly stated condition. The intended claims, the shorter diagonal for strictly convex quads and the only valid diagonal for concave quads, are false.", "quantifier": "all quads (all coordinates)", "why_tests_cant": "all coordinates; the source itself asks whether the convexity checks are correct", "anchors": ["src/tesselate/fixed_n.rs: min_weight_quad, try_min_weight_small"]}
{"id": "C29", "title": "Ear clipping terminates and covers the polygon", "statement": "For every input and every outcome of the geometric predicates, ear_clipping_direct terminates; if it does not panic, it emits exactly n-2 triangles whose oriented boundaries sum to the reversed polygon boundary (also with the randomised start).", "quantifier": "every vertex list, every predicate outcome, every random choice", "why_tests_cant": "the recovery mode and random restarts create unboundedly many paths", "anchors": ["src/tesselate/ear_clipping.rs: ear_clipping_direct"]}
{"id": "C30", "title": "Ear clipping emits the opposite winding of the face", "statement": "For every face with at least three vertices, if ear clipping succeeds the emitted triangles cover the reversed boundary of the face. So the intended claim, that every algorithm emits the winding of the face, is false.", "quantifier": "every face and algorithm", "why_tests_cant": "winding mistakes are invisible to area/count checks", "anchors": ["src/tesselate/mod.rs: triangulate_face", "src/tesselate/ear_clipping.rs"]}
{"id": "C31", "title": "minweight_dynamic is a minimum-weight triangulation", "statement": "minweight_dynamic_direct, if it does not panic, emits n-2 triangles covering the polygon using only valid diagonals, with total weight minimal among all triangulations of the polygon using only valid diagonals; if any triangulation by valid diagonals exists it does not panic.", "quantifier": "every n, every weight function and diagonal-validity table", "why_tests_cant": "the number of triangulations is exponential (Catalan) for every n", "anchors": ["src/tesselate/min_weight_dynamic.rs: minweight_dynamic_direct, fill_m, traceback"]}
{"id": "C32", "title": "TriangularStore is a faithful table", "statement": "Index pairs (i,j) with i<j<n map injectively into the storage range; writing one entry changes only that entry.", "quantifier": "all n, i<j<n", "why_tests_cant": "all n", "anchors": ["src/tesselate/min_weight_dynamic.rs: TriangularStore"]}
{"id": "C33", "title": "Linear monotone triangulator covers the monotone chain polygon", "statement": "For every sequence of left/right insertions and all angle outcomes, the triangles emitted so far plus the remaining stack polygon have the boundary of the polygon spanned by both chains; when it finishes without panic it has emitted n-2 triangles.", "quantifier": "every sequence of insertions and every predicate outcome", "why_tests_cant": "all interleavings of both chains", "anchors": ["src/tesselate/sweep/monotone/linear.rs"]}
{"id": "C34", "title": "Dynamic monotone triangulator triangulates left chain followed by reversed right chain", "statement": "finish() hands exactly left ++ rev(right) to the small/min-weight triangulation, so that its triangles cover the monotone polygon.", "quantifier": "every sequence of insertions", "why_tests_cant": "all interleavings", "anchors": ["src/tesselate/sweep/monotone/dynamic.rs"]}
{"id": "C35", "title": "Triangulation::flip_edge keeps the covered region", "statement": "flip_edge either returns Err and leaves the buffer unchanged or replaces abc,adb by adc,dbc, which keeps the number of triangles and the sum of oriented boundaries (and hence the total signed area), and touches no other triangle.", "quantifier": "every index buffer and arguments", "why_tests_cant": "all buffers", "anchors": ["src/mesh/triangulation.rs: flip_edge"]}
{"id": "C36", "title": "Delaunay monotone triangulator covers the same region as the linear one", "statement": "For every insertion sequence of distinct vertices and every predicate outcome, the Delaunay variant never panics while inserting, its legalisation loop terminates, it has the same stack and number of triangles as the linear variant, and when it finishes its triangles triangulate the same polygon. With a repeated vertex it may panic where the linear variant finishes.", "quantifier": "every insertion sequence and every predicate outcome", "why_tests_cant": "unbounded chains of flips", "anchors": ["src/tesselate/sweep/monotone/delaunay.rs"]}
{"id": "C37", "title": "Sweep-line triangulation covers the polygon", "statement": "If sweep_line_triangulation finishes with an empty sweep-line status, the emitted triangles' oriented boundaries sum to the polygon's boundary and their number is n - 2 starts + 2 merges (n-2 if there is one start more than merges), for every event order and every outcome of the geometric predicates.", "quantifier": "every polygon, event order and predicate outcome", "why_tests_cant": "numerically nasty inputs can drive the algorithm through any predicate outcome", "anchors": ["src/tesselate/sweep/sweep.rs", "src/tesselate/sweep/status.rs"]}
{"id": "C38", "title": "Which triangles the triangulation self-checks check", "statement": "Exact characterisation of verify_non_degenerate_triangle, verify_no_intersections, total_edge_weight and verify_area. The intended claim, that all triangles added since the triangulation was created are checked, holds for an empty start buffer and is false otherwise; verify_area accepts any area between zero and twice the expected one.", "quantifier": "every index buffer and start offset", "why_tests_cant": "tests only use start = 0", "anchors": ["src/mesh/triangulation.rs: verify_non_degenerate_triangle, verify_no_intersections, total_edge_weight, verify_area"]}
{"id": "C39", "title": "dense_vertices remaps the index buffer to the compact vertex buffer", "statement": "For dense vertex arenas, after dense_vertices each index points to the payload of the vertex it referred to before and is in range. For sparse arenas the exact behaviour is characterised; there the intended claim is false because nothing is remapped.", "quantifier": "every mesh and index buffer", "why_tests_cant": "sparse arenas never occur in tests", "anchors": ["src/halfedge/mesh/basics.rs: dense_vertices"]}
{"id": "C40", "title": "Flat-normal export duplicates vertices correctly", "statement": "triangulate_and_generate_flat_normals_post produces in-range indices such that every triangle of face k refers only to the block of vertices duplicated for face k and carries the payload position of the original vertex.", "quantifier": "every mesh and triangulator output", "why_tests_cant": "all face counts and sizes", "anchors": ["src/mesh/mesh/triangulate.rs", "src/mesh/triangulation.rs: map_indices"]}
{"id": "C41", "title": "circumcircle_contains is the in-circle predicate for counter-clockwise triangles", "statement": "For a counter-clockwise triangle the determinant is positive exactly if the point lies strictly inside the circumcircle; for a clockwise one exactly if it lies strictly outside.", "quantifier": "all points over an ordered field", "why_tests_cant": "all coordinates", "anchors": ["src/tesselate/sweep/monotone/delaunay.rs: circumcircle_contains, determinant_4x4, determinant_3x3"]}
{"id": "C42", "title": "signed_area is a proper signed area", "statement": "signed_area is invariant under rotating the point list and under translation, negated by reversing it, zero for fewer than three points, and equals the sum of the signed areas of any set of triangles whose oriented boundary sums to the polygon's boundary.", "quantifier": "all polygons over a commutative ring", "why_tests_cant": "all sizes and coordinates", "anchors": ["src/math/polygon.rs: signed_area"]}
{"id": "C43", "title": "Compensated summation equals the plain sum in exact arithmetic", "statement": "neumaier_summation and kahan_summation return the exact sum and the exact count on exact arithmetic for every list.", "quantifier": "all lists over a ring", "why_tests_cant": "all lists", "anchors": ["src/math/scalar.rs: neumaier_summation, kahan_summation"]}
{"id": "C44", "title": "Curved edges start and end at their vertices and flatten uniformly", "statement": "point_at(0) is the origin position and point_at(1) the target position for linear, quadratic and cubic edges; flatten_uniform(n) yields the n-1 interior points in order; a point of the curve is an affine combination of the control polygon.", "quantifier": "all control points, n, t", "why_tests_cant": "all coordinates and n", "anchors": ["src/mesh/edge/curved.rs: point_at, flatten_uniform"]}
{"id": "C45", "title": "flatten_casteljau yields an ordered dyadic partition whose midpoints deviate by at most the error", "statement": "Whenever flatten_casteljau terminates, its points are the curve at strictly increasing dyadic parameters in (0,1), and for each resulting segment the curve midpoint deviates from the chord midpoint by at most the error.", "quantifier": "all curves and tolerances", "why_tests_cant": "recursion depth depends on data", "anchors": ["src/mesh/edge/curved.rs: flatten_casteljau"]}
{"id": "C46", "title": "flatten_casteljau respects the requested error for linear and quadratic edges", "statement": "For linear and quadratic edges every point of the curve is within the requested error of the returned polyline. For cubic edges this is false because only the midpoint is tested.", "quantifier": "all curves and tolerances", "why_tests_cant": "needs the whole curve, not samples", "anchors": ["src/mesh/edge/curved.rs: flatten_casteljau"]}
{"id": "C47", "title": "Affine transforms chain and compose as documented, except scaling (nalgebra)", "statement": "NdAffine::chain applies self first and then other; identity is neutral; chain is associative; with_translation translates after the transform; apply_vec ignores the translation; with_scale scales after the transform for uniform scales and for diagonal transforms. The documented claim that it does so in general is false.", "quantifier": "all matrices, translations, vectors in every dimension", "why_tests_cant": "all inputs", "anchors": ["src/extensions/nalgebra/math/transform_n.rs", "src/math/transform.rs"]}
{"id": "C48", "title": "What Mat5 chaining and scaling do (bevy 4d)", "statement": "Exact behaviour of Mat5::chain (other is applied first) and with_scale (only the diagonal is multiplied). The documented claims, self first and scaling the result, are false.", "quantifier": "all matrices and vectors", "why_tests_cant": "all inputs", "anchors": ["src/extensions/bevy/math/mat5.rs", "src/math/transform.rs"]}
{"id": "C49", "title": "Which floating-point values is_positive accepts", "statement": "Exact characterisation on bit patterns: is_positive is true exactly for values without sign bit, so for strictly positive values, plus zero and NaNs without sign bit. The documented meaning, strictly positive, is false.", "quantifier": "all floating-point values", "why_tests_cant": "zero signs and NaN", "anchors": ["src/math/scalar.rs: Scalar::is_positive", "src/math/impls (f32,f64)"]}
{"id": "C50", "title": "intersect_line returns a common point of both segments", "statement": "If intersect_line returns a point then (for eps2=0) it lies on both segments; if it returns None with eps=0 the segments are parallel or disjoint.", "quantifier": "all segments over an ordered field", "why_tests_cant": "all coordinates", "anchors": ["src/math/line_segment.rs: intersect_line"]}
{"id": "C51", "title": "is_inside_triangle is correct for strictly interior points", "statement": "For non-degenerate triangles is_inside_triangle is true exactly for the strict convex combinations of the corners, independent of orientation.", "quantifier": "all triangles and points", "why_tests_cant": "all coordinates", "anchors": ["src/math/vector2d.rs: is_inside_triangle, barycentric_sign"]}
{"id": "C52", "title": "Newell normal is the area vector", "statement": "The face normal computed with Newell's method equals half the sum of cross products of consecutive positions for closed polygons; it is translation invariant and orthogonal to the plane of a planar polygon.", "quantifier": "all polygons", "why_tests_cant": "all sizes and coordinates", "anchors": ["src/math/vector3d.rs: normal"]}
{"id": "C53", "title": "Running out of indices panics instead of aliasing", "statement": "When the index type is exhausted, allocation panics; it never returns the sentinel or an id in use.", "quantifier": "every history and index width", "why_tests_cant": "needs 2^8..2^64 allocations", "anchors": ["src/math/index_type.rs", "src/util/deletable.rs"]}
{"id": "C54", "title": "Which solid constructors panic on every input", "statement": "cylinder, frusta with smooth=true and insert_antiprism panic for every n>=3 (the intended claim, that they terminate normally, is false).", "quantifier": "all n", "why_tests_cant": "a panic on every input is visible only if someone calls it", "anchors": ["src/primitives/prismatoid.rs: cylinder, insert_antiprism"]}
{"id": "C55", "title": "twin_edges enumerates each edge exactly once", "statement": "On every consistent mesh twin_edges yields exactly one pair per undirected edge and num_edges is twice their number.", "quantifier": "every consistent mesh", "why_tests_cant": "all meshes", "anchors": ["src/mesh/mesh/halfedge.rs: twin_edges"]}
{"id": "C56", "title": "The face iterator reports its remaining length", "statement": "The size_hint of ForwardEdgeIterator (an ExactSizeIterator) is the number of half-edges it will still yield. (Refuted: exact before the first element, one too large afterwards, for every loop and position.)", "quantifier": "every consistent mesh, loop and iterator position", "why_tests_cant": "depends on iterator position and loop length", "anchors": ["src/halfedge/edge/iterator.rs: ForwardEdgeIterator::size_hint"]}
{"id": "C57", "title": "The sweep-line triangulation handles every simple polygon", "statement": "sweep_line_triangulation triangulates every simple counter-clockwise polygon without panicking. (False: a split vertex below a purely left chain panics in last_opposite.)", "quantifier": "every simple polygon", "why_tests_cant": "the panic needs a particular interleaving of chains that no test polygon has", "anchors": ["src/tesselate/sweep/sweep.rs: try_split", "src/tesselate/sweep/monotone/linear.rs: last_opposite", "src/tesselate/sweep/monotone/dynamic.rs: last_opposite"]}
{"id": "C58", "title": "Geodesic spheres are spheres", "statement": "For every radius > 0 and every power of two n, geodesic_icosahedron and geodesic_octahedron build, without panicking, a consistent closed triangle mesh with 20*n*n resp. 8*n*n triangles around the origin whose vertices are all exactly at distance radius from the origin. In general, subdividing a closed triangle mesh around a centre with the spherical interpolator keeps the old vertices, puts every new vertex on the sphere and keeps all triangles around the centre. Any n that is not a power of two panics. (The same claim is false for geodesic_tetrahedron: its four corners stay at 0.61 of the radius.) Exact real arithmetic.", "quantifier": "every radius, every n, every EPS, debug and release builds", "why_tests_cant": "tests look at a few subdivision depths and cannot check every vertex for every radius; the orientation of the triangles is never tested", "anchors": ["src/primitives/sphere.rs: geodesic_icosahedron, geodesic_octahedron, geodesic_tetrahedron", "src/mesh/vertex/interpolator.rs: SlerpVertexInterpolator", "src/math/vector3d.rs: slerp", "src/primitives/prismatoid.rs: regular_tetrahedron, regular_octahedron"]}
{"id": "C59", "title": "Point-in-polygon test", "statement": "Polygon::contains never panics on a polygon that has a triangulation. For a point that is not on the boundary it answers true exactly if the point lies in one of the triangles of any triangulation whose triangles are all turned the same way; for arbitrary, also self-intersecting, polygons it answers true exactly if the winding number, counted over the triangles of any triangulation, is not zero. valid_diagonal accepts two corners that are not neighbours exactly if their midpoint is inside and no boundary edge away from both corners crosses the segment. On the boundary contains is inconsistent, and valid_diagonal may accept a segment that runs along the boundary.", "quantifier": "all polygons with rational corners, all triangulations of them, all points, all answers of the sign tests at zero", "why_tests_cant": "the shape of the polygon and the position of the point are unbounded; tests try a few points", "anchors": ["src/math/polygon.rs: contains, valid_diagonal"]}
{"id": "C60", "title": "Path builder and SVG paths", "statement": "Starting a path at a new vertex and drawing lines to new vertices adds exactly one open path with the given vertex and edge payloads on top of any consistent mesh; a last line back to the start and close add exactly one face whose boundary is the path in reverse. An SVG path that returns to its start exactly at its end is imported as one such polygon, with the curves stored in the drawn half-edges. The documented automatic closing of an open path does not work: close panics on every path with at least one line that was not closed explicitly, so an SVG path that leaves the last line to Z is never imported; nor is a path with several subpaths.", "quantifier": "all consistent meshes with room, all lists of lines or curves, all payloads, debug and release builds", "why_tests_cant": "the length of the path is unbounded and the existing mesh is arbitrary; the repository has no running test of the path builder", "anchors": ["src/mesh/mesh/path_builder.rs: start_ex, line_ex, line_to_ex, quad_to, cubic_to, close, add_vertex_autoclose, move_to_new", "src/extensions/svg/svg.rs: import_path"]}
{"id": "C61", "title": "Transforming a mesh", "statement": "Transforming, translating, rotating and scaling a mesh keep every id and link and touch every payload exactly once. Every point of every straight or curved edge moves with the transform; translating is transforming by the translation, and two transforms in a row are one by the chained transform. Under a rigid motion the normal of a face turns with the mesh (a mirroring reverses it) and angles between stored normals and surface directions are kept. The stored normals do not stay normals in general: after mirroring they point into the surface, after non-uniform scaling they are not perpendicular and after uniform scaling not of unit length.", "quantifier": "all meshes, all affine transforms over any commutative ring, all curve parameters", "why_tests_cant": "there are infinitely many meshes and transforms; a few examples say nothing about the composition law or about every point of a curve", "anchors": ["src/mesh/mesh/transform.rs: transform, translate, rotate, scale", "src/math/transformable.rs: Transformable", "src/extensions/nalgebra/default_vertex_payload.rs: transform, translate, scale, rotate", "src/mesh/edge/payload.rs, src/mesh/edge/curved.rs: CurvedEdgePayload transform, point_at"]}
{"id": "C62", "title": "Flattening curved edges", "statement": "If each curved half-edge whose flattening has inner points has exactly one other half-edge at its origin and a straight twin, flatten_curved_edges divides exactly these half-edges, at exactly the inner points computed by flatten_casteljau for the original curve, keeps the mesh consistent, keeps all faces and turns every loop into the loop of the pieces. The flattenings exist for every mesh and every positive tolerance; every point of a divided quadratic edge is within the tolerance of the segments that replace it. The documented result, a mesh without curved edges, is false: exactly the curved half-edges without inner points stay curved. With curves in both half-edges of an edge vertices are placed off the curves; with three edges at an origin the mesh is broken.", "quantifier": "all consistent meshes with room, all curves, all tolerances; flattening function arbitrary for the effect on the mesh", "why_tests_cant": "the number of curved edges, their order and the number of points per edge are unbounded; the edges are divided one after the other, so a later division could disturb an earlier one", "anchors": ["src/mesh/mesh/basics.rs: flatten_curved_edges, has_curved_edges", "src/mesh/edge/curved.rs: flatten_casteljau"]}
{"id": "C63", "title": "Face predicates", "statement": "For a planar face without straight corners is_convex answers yes iff all corners turn the same way or the turns alternate; with an odd number of vertices iff all turn the same way. is_planar accepts every planar face with at least three vertices, panics for fewer, and if the first three vertices are not on a line every vertex of an accepted face is within eps/|n| of their plane. has_self_intersections answers yes iff two different edges, not parallel up to eps, meet at parameters within [eps, 1-eps]; every simple polygon is accepted by is_simple. normal_naive is the turn at the first corner times the plane normal. The intended claims (exact tests) are false: a star is called convex and its naive normal points to the wrong side; a pentagram is called convex; with straight corners the answer depends on the sign of zero and an L may be called convex; small skew faces and faces that start with three collinear vertices are called planar; polygons touching or overlapping themselves and thin crossing polygons are called simple.", "quantifier": "all faces of all meshes, all planes, all tolerances, all sign tests (arbitrary at zero)", "why_tests_cant": "the number of vertices is unbounded and the coordinates are rational", "anchors": ["src/mesh/face/face3d.rs: vertices_crossed, is_convex, is_planar, has_self_intersections, is_simple, normal_naive"]}
{"id": "C64", "title": "Triangulating a whole mesh", "statement": "For every consistent mesh and every algorithm except ear clipping, a successful triangulate lists, face by face, triangulations with the winding of the face boundary: all indices are vertices, the number of triangles is the number of face sides minus two per face, and as oriented chains the triangles cover exactly the half-edges that belong to a face; for a closed mesh they are watertight. With ear clipping the faces with more than four vertices are turned over, so a closed mesh stays watertight iff no edge lies between a face with at most four vertices and a larger one (a pentagonal pyramid is not). Meshes of triangles and quads succeed with every algorithm and the same result, provided the quads can be rotated into the plane (see C71); the fan succeeds in release builds if the faces with four to six vertices can; a face with four to six vertices that cannot makes every algorithm fail; EdgeFlip and Heuristic panic as soon as a face has more than four vertices; a face with fewer than three vertices makes every algorithm fail.", "quantifier": "all consistent meshes, all algorithms, all outcomes of the geometric predicates, debug and release", "why_tests_cant": "the number of faces and their sizes are unbounded, and so are the geometric configurations", "anchors": ["src/tesselate/mod.rs: triangulate_face", "src/tesselate/fixed_n.rs: try_min_weight_small", "src/mesh/mesh/triangulate.rs: triangulate"]}
{"id": "C65", "title": "Drawing glyph outlines and text", "statement": "For every consistent mesh with room and every glyph whose segments form closed outlines of at least three segments, draw_glyph_outlines succeeds and adds exactly one ring of vertices, edges and a face per outline (holes become faces too), with the scaled and moved starts of the segments as positions and the scaled and moved control points on the edges; lines from a point to itself are skipped. Every segment but the last one of an outline lies parameter by parameter on the half-edge along it; the last one is stored in the half-edge against it, which runs through the same points backwards iff it is not a cubic with two different control points. layout_text draws every glyph at the sum of the advances before it and the kernings up to it. An outline of two segments panics in debug builds; an outline that never returns to its start becomes an open path without a face.", "quantifier": "all consistent meshes, all outlines, all texts, all scales and fonts", "why_tests_cant": "the number of glyphs, outlines and segments and all coordinates are unbounded", "anchors": ["src/mesh/mesh/fonts.rs: layout_text, draw_glyph_outlines"]}
{"id": "C66", "title": "Smooth normals", "statement": "For every consistent mesh (with planar faces in debug builds) generate_smooth_normals succeeds, changes normals only, and gives every vertex with a face the direction of the sum of the unit normals of the faces at it, one per corner. If these look into a common half space the normal is a unit vector of that half space; at flat vertices it is the normal of the surroundings; where triangles are turned away from the origin it points away from it; it turns with rigid motions of the mesh. A non-planar face panics in debug builds. Unit length fails: the vertices of a two-sided triangle get zero normals wherever they are, and vertices without a face get 0/0.", "quantifier": "all consistent meshes, all real positions, any number of faces at a vertex, all rigid motions", "why_tests_cant": "positions are real numbers; the number of faces and of faces at a vertex is unbounded", "anchors": ["src/mesh/mesh/normals.rs: generate_smooth_normals", "src/math/vector.rs: stable_mean", "src/halfedge/vertex/basics.rs: faces"]}
{"id": "C67", "title": "Regular polygons and solids: lengths, areas, convexity", "statement": "regular_polygon makes a counter-clockwise face with the sides and the area that regular_polygon_sidelength and regular_polygon_area say. Regular pyramids, frustums, prisms, antiprisms, UV spheres, cuboids, icosahedra, octahedra and tetrahedra are convex solids with all faces turned outwards; corners are on the circumscribed spheres; side lengths are as documented; all sides of a uniform prism are equal. The area of a star is known in closed form. False claims: a uniform antiprism has all sides equal (never, for any number of sides; the height that would do it is characterised); a regular star alternates between the radii (not for an odd number of corners).", "quantifier": "all n, all positive radii and heights, all capacities that suffice", "why_tests_cant": "the number of corners is unbounded, sizes are real numbers", "anchors": ["src/primitives/polygon.rs: insert_regular_star, regular_polygon_sidelength, regular_polygon_area", "src/primitives/prismatoid.rs: regular_pyramid, regular_frustum, regular_prism, uniform_prism, regular_antiprism, uniform_antiprism, regular_tetrahedron, regular_octahedron, cuboid", "src/primitives/sphere.rs: uv_sphere, regular_icosahedron, icosahedron_a2r, icosahedron_r2a"]}
{"id": "C68", "title": "Hems of general polygons", "statement": "loft_polygon_back with any n, m >= 2: if the boundary loop has N*(m-1) half-edges and the iterator has N*(n-1) payloads (at least 3), the code builds a closed ring of N faces with n+m sides, each with n corners on the new boundary and m on the old one; the new boundary runs through the payloads in reverse order; the returned half-edge leads from the second inserted vertex to the first. With fewer payloads the hem stays open and everything built so far is described exactly. The conditions on the lengths are needed: with one payload too many the hem stays open, and a loop whose length is no multiple of m-1 can make the code panic.", "quantifier": "all meshes, all boundary loops, all n, m >= 2, all payload lists, all capacities that suffice", "why_tests_cant": "the numbers of corners, of polygons and of payloads are unbounded", "anchors": ["src/operations/loft.rs: loft_polygon_back"]}
{"id": "C69", "title": "Dodecahedron", "statement": "dodecahedron(radius) was meant to be the regular dodecahedron; as written it is not: with debug assertions it panics for every radius, without them it returns an inconsistent mesh in which the first pentagon is a hole and two faces share one boundary. With the start edge from the first to the second corner the calls make a closed consistent mesh of 12 pentagons, 20 vertices and 30 edges for all payloads, and with the first five points reversed it is the regular dodecahedron: convex, faces outwards, all sides 2 radius/PHI, all corners on the sphere of radius sqrt 3 radius. Changing only the start edge leaves unequal sides.", "quantifier": "all radii, all payloads, all capacities that suffice", "why_tests_cant": "radii are real numbers, payloads and capacities arbitrary", "anchors": ["src/primitives/sphere.rs: dodecahedron", "src/operations/loft.rs: loft_polygon_back"]}
{"id": "C70", "title": "Drawing on an existing boundary with the path builder", "statement": "Starting the path builder at a boundary half-edge that is the only boundary half-edge into its target and drawing lines to new vertices hangs exactly one path with the given payloads on that vertex. A last line to another such corner of the same boundary loop, then close, divides the loop by the path: one side becomes exactly one new face, the other stays a boundary, nothing else changes. Closing at once fills the loop. Starting at a vertex instead was meant to do the same; it does only if the half-edge stored in the vertex lies on the boundary: otherwise the lines are drawn but close panics. Closing a path that left the boundary and did not come back panics too.", "quantifier": "all consistent meshes with room, all boundary corners, all lists of lines, all payloads, debug and release builds", "why_tests_cant": "the mesh, the boundary and the path are of unbounded size; which half-edge a vertex stores depends on the history of the mesh", "anchors": ["src/mesh/mesh/path_builder.rs: start_at, start_at_edge, line_ex, line_to_ex, close"]}
{"id": "C71", "title": "Faces rotated into the plane", "statement": "For every consistent mesh and every face, vertices_2d was meant to lay the face into the plane: vertices in order, seen from the side the normal points to, so that distances within the face are kept, turns around the normal are counter-clockwise and the signed area is the area of the face. This holds for every face whose normal is not vertical up to eps (every face that looks up included, with lengths exact up to the factor 1 - eps^2). Exactly the faces that look down along the vertical panic with the rotations of nalgebra; with those of Bevy they are fine. Since every face with four to six vertices is first offered to the small minimum-weight triangulation, a single such face makes every algorithm panic on the whole mesh: no axis-parallel cuboid, of any size, can be triangulated. The rotations themselves: axis and angle give the turn by the angle about the axis, as matrix and as quaternion; from_rotation_arc takes any unit vector to any other by a rotation about an axis across both, except that parallel vectors (up to eps) give the identity and opposite ones panic with nalgebra and give half a turn with Bevy.", "quantifier": "all consistent meshes, all faces of any size, all real positions, all eps, debug and release builds, all triangulation algorithms", "why_tests_cant": "positions and sizes of faces are unbounded; the exception is a single direction that random tests miss", "anchors": ["src/mesh/face/face3d.rs: vertices_2d, vec2s", "src/extensions/nalgebra/math/rotate.rs: from_rotation_arc", "src/extensions/bevy/math/vec3.rs: from_rotation_arc", "src/tesselate/fixed_n.rs: try_min_weight_small"]}
{"id": "C72", "title": "Area and volume of triangulated meshes", "statement": "For every consistent mesh, all positions of the vertices and every algorithm other than ear clipping (whose result does not cover the faces), a successful triangulation was meant to keep area and volume: the area vectors of the triangles add up to those of the faces; on a closed mesh they add up to zero, and the enclosed volume does not depend on the point it is measured from; if the faces are flat, it is the sum of the cones over the faces. Hence every triangulation of the solids encloses the volume given by the textbook formula: pyramids and prisms over any flat polygon and bipyramids over any polygon, regular pyramids, frustums, prisms and antiprisms, cuboids, tetrahedra, octahedra, icosahedra. Ear clipping breaks it: the triangles of a pyramid over a pentagon do not add up to zero.", "quantifier": "all consistent meshes, all real positions, all numbers of corners, radii and heights, all algorithms but ear clipping, all choices of the external functions, debug and release builds", "why_tests_cant": "sizes are unbounded and volumes are real numbers with roots and trigonometric functions; tests compare a few triangles", "anchors": ["src/mesh/mesh/triangulate.rs: triangulate", "src/mesh/triangulation.rs", "src/primitives/prismatoid.rs", "src/primitives/sphere.rs", "src/primitives/polygon.rs: regular_polygon_area"]}
{"id": "C73", "title": "Delaunay triangulation of faces: triangles inside are kept, chords break it", "statement": "For every consistent mesh and every face of it, given any constrained Delaunay triangulation of its corners (triangles counter-clockwise, one at most on each side of an edge, sides respected), delaunay_triangulation was meant to keep exactly the triangles inside: those it keeps triangulate the face, and the six debug checks of the angle test agree at every triangle. This holds if the corners of the face differ and are joined by no edge of the mesh other than the sides of the face; then a triangulation of a whole mesh with this algorithm treats every face by itself and has no gaps if the mesh is closed. It is false in general: if two corners are also joined elsewhere, triangle_touches_boundary takes that edge for a side, and the triangle is dropped.", "quantifier": "all consistent meshes and faces of any size, all real positions at least eps apart, all constrained triangulations whatever their order, debug and release builds", "why_tests_cant": "faces and triangulations are unbounded, the angle test depends on reflex corners and on wrapping angles; tests triangulate one letter", "anchors": ["src/tesselate/delaunay.rs: delaunay_triangulation", "src/halfedge/face/mod.rs: triangle_touches_boundary", "src/math/vector2d.rs: angle_tri"]}
{"id": "C74", "title": "The comparison of meshes by position decides isomorphism", "statement": "is_isomorphic_by_pos (and is_isomorphic_by with any similarity) was meant to report two meshes as equivalent exactly if there is an isomorphism that maps every vertex to a near vertex. It never panics on consistent meshes, and the claim holds if neither mesh has parallel edges and no vertex is near to two vertices of the other mesh; in particular what import_mesh makes of a mesh is equivalent to it. With parallel edges a mesh may be reported different from itself, and is_isomorphic_pos, documented to identify the vertices by position, only compares vertices with equal ids, so isomorphic meshes with the same positions are reported different.", "quantifier": "all pairs of consistent meshes, whatever their ids and deleted slots, all similarities of vertices, debug and release builds", "why_tests_cant": "the comparison depends on which edge, face and rotation is found first; tests compare a few cubes", "anchors": ["src/mesh/mesh/basics.rs: find_payload_isomorphism", "src/mesh/mesh/basics.rs: is_isomorphic", "src/mesh/mesh/basics.rs: is_isomorphic_by_pos", "src/mesh/mesh/basics.rs: is_isomorphic_pos"]}
{"id": "C75", "title": "The export to a Bevy mesh shows the triangulated faces", "statement": "bevy_set_ex and to_bevy_ex were meant to turn every mesh with a Bevy vertex payload into a Bevy mesh. For 8-, 16- and 32-bit vertex ids the result has exactly the attributes position and normal, of equal length, whatever the target contained; no index is changed by the conversion; without flat normals (and without deleted vertices) the indices are the corners of the triangulated faces and each points at the payload of its vertex; with flat normals each corner points at the position of its vertex with the normal of its face, and the export succeeds exactly if the corners can be counted with the index type. Meshes with 64-bit ids always panic.", "quantifier": "all consistent meshes, all faces, all index widths, all previous contents of the target, every triangulation of the faces that is sound in the sense of C64", "why_tests_cant": "the result depends on every face, deleted slots, the index type and what the target held before; tests export a few solids", "anchors": ["src/extensions/bevy/mesh3d.rs: bevy_set_ex", "src/extensions/bevy/mesh3d.rs: bevy_indices", "src/extensions/bevy/mesh3d.rs: to_bevy_ex", "src/mesh/mesh/triangulate.rs: triangulate_and_generate_flat_normals_post", "src/math/index_type.rs: new"]}
{"id": "C76", "title": "Generated test polygons are simple", "statement": "generate_zigzag(n) was meant to give a polygon with n vertices for every even n, hard for the sweep line: it is simple, counter-clockwise, of area (n/2 - 1) / floor(n/4), and no corner is regular (the lower chain consists of splits and ends, the upper one of starts and merges). True for n >= 4; for n = 2 the assertion passes but the coordinates are infinite and not a number. random_star with at least three vertices and positive radii is simple, star-shaped around the origin and counter-clockwise whatever the random numbers; with radii down to zero it need not be simple.", "quantifier": "all even numbers of vertices, all tolerances below 1/floor(n/4), all random numbers", "why_tests_cant": "the generators feed the tests of the triangulations; nothing tests them, and they are defined for every size", "anchors": ["src/primitives/misc.rs: generate_zigzag", "src/primitives/misc.rs: random_star", "src/tesselate/sweep/vertex_type.rs: new"]}
{"id": "C77", "title": "The conversion into more dimensions replaces curves by paths within the tolerance", "statement": "to_nd and to_3d turn a flat mesh into a mesh in more dimensions. If every vertex has an edge, no half-edge is its own successor, and at the origin of every half-edge with inner points exactly one other half-edge leaves whose edge has its curve on one side only, then the result is a consistent mesh in which every half-edge is replaced by a path from the copy of its origin through the points of its flattening to the copy of its target; twins, loops and faces are replaced accordingly and there is nothing else; everything lies in the plane of the first two coordinates. Every point of a quadratic edge is within the tolerance of its path, also where C62 leaves a curve. Isolated vertices make the conversion panic, and branching at a curved half-edge breaks the result.", "quantifier": "all consistent meshes, all curves, tolerances and dimensions", "why_tests_cant": "the result composes a flattening of every edge with a renaming of every id; tests look at few fonts", "anchors": ["src/extensions/nalgebra/mesh2d.rs: to_nd", "src/extensions/bevy/mesh2d.rs: to_3d", "src/extensions/nalgebra/math/vec_n.rs: from_xy"]}
{"id": "C78", "title": "What chaining, scaling and translating the Bevy transforms do", "statement": "The transformations of Bevy's 2d and 3d meshes were meant to satisfy the documentation of TransformTrait: chain applies self first, with_scale scales everything including previous translations, with_translation adds a translation, apply_vec ignores the translation. In two dimensions all but chain hold, which applies other first. In three dimensions none holds: chain applies other first if the scale of self is uniform or other does not rotate, and is neither composition otherwise; with_scale and with_translation replace; apply_vec adds the translation, so that moving a vertex changes its normal. Unit quaternions are rotations that keep dot and cross products and multiply as they compose.", "quantifier": "all transforms and vectors over any commutative ring", "why_tests_cant": "the claims concern all combinations of scale, rotation and translation; the repository has no tests for them", "anchors": ["src/extensions/bevy/math/vec2.rs", "src/extensions/bevy/math/vec3.rs", "src/math/transform.rs", "src/extensions/bevy/vertex_payload_3d.rs: transform"]}
{"id": "C79", "title": "pair_edges lists every edge exactly once", "statement": "On a consistent mesh pair_edges returns, whatever the order of the values of its hash map, one entry per edge: the smaller of its two half-edges with its twin, both ends, the neighbours and faces of both half-edges, sorted by id. The number of entries is half the number of half-edges.", "quantifier": "all consistent meshes, all orders of the hash map", "why_tests_cant": "the order of the hash map differs from run to run; the function is only used for printing and has no tests", "anchors": ["src/halfedge/mesh/pseudo_winged.rs: pair_edges"]}
{"id": "C80", "title": "Euclidean adjacency has the distances; the Euclidean Laplacian counts edges on its diagonal", "statement": "On a consistent mesh with consecutive vertex ids adjacency_matrix_euclidean is symmetric, has the distance at adjacent pairs and zero elsewhere and on the diagonal; otherwise it panics. laplacian_euclidean has the negated distances beside the diagonal, but the number of edges of the vertex on it, so a row sums to the number of edges minus the sum of their lengths. It is not the Laplacian weighted by distances: one edge of length 10 gives a row sum of -9.", "quantifier": "all consistent meshes, all positions in any dimension", "why_tests_cant": "matrices of arbitrary size; the tests do not cover the weighted versions", "anchors": ["src/mesh/mesh/netsci.rs: adjacency_matrix_euclidean, laplacian_euclidean"]}
{"id": "C81", "title": "What the 4d transformations of the Bevy extension do", "statement": "The 5x5 matrices made with the interface stay affine. chain(t, o) applies o first and then t, with_translation adds a translation, apply_vec is the map of differences, and identity, from_translation and from_scale are what they say. The documentation also says that chain applies self first and that with_scale scales previous translations; both are false, with_scale multiplies the diagonal only.", "quantifier": "all matrices made with the interface and all vectors over any commutative ring", "why_tests_cant": "the claims concern all combinations of operations; there are no tests for four dimensions", "anchors": ["src/extensions/bevy/math/mat5.rs", "src/math/transform.rs"]}
{"id": "C82", "title": "shared_face finds a common face exactly if there is one", "statement": "On a consistent mesh shared_face of two live vertices returns a live face with a half-edge starting at each of the two, or None exactly if no face has both vertices. It panics if one of the vertices does not exist.", "quantifier": "all consistent meshes, all pairs of vertices", "why_tests_cant": "vertices of any degree on meshes of any shape; the function has no tests", "anchors": ["src/halfedge/mesh/basics.rs: shared_face"]}
{"id": "C83", "title": "flip_yz mirrors positions only and turns the mesh inside out", "statement": "flip_yz keeps all links, exchanges the y and z coordinates of every position and keeps all other payloads; twice gives the same mesh. The computed normal of every face becomes the opposite of the mirrored normal. Stored normals and control points of curves are not mirrored, so stored normals that agree with the faces no longer do.", "quantifier": "all meshes, all positions over any commutative ring", "why_tests_cant": "the claim concerns faces with any number of vertices; the function has no tests", "anchors": ["src/halfedge/mesh/builder/vertex.rs: flip_yz", "src/math/vector3d.rs: xzy"]}
{"id": "C84", "title": "Import of SVG documents", "statement": "A document without texts and images whose visible paths are closed outlines that return to their start only at the end is imported as one polygon per visible outline, in document order, through arbitrarily nested groups, on any consistent mesh; invisible paths are skipped; a text without root element is read as the content of an svg element. A document containing a text or an image at any depth is never imported. The transformations of groups and paths are ignored, so that points of transformed elements are imported at the wrong place.", "quantifier": "all documents (trees of any depth and width), all consistent meshes, all parsers", "why_tests_cant": "documents are unbounded trees; the tests import a few fixed files", "anchors": ["src/extensions/svg/svg.rs: import_group, import_path, import_svg", "src/extensions/svg/mod.rs: import_svg, from_svg"]}
{"id": "C85", "title": "Methods of the Bevy vertex payloads", "statement": "rotate of the 3d payload is the transform by the rotation; translate and scale move positions as the transforms do; translate, rotate and uniform scale keep normals perpendicular to the surface and their length; lerp runs between the payloads and commutes with all of them. Counterexamples: translate and scale differ from the transforms in the normals, and scaling by different factors tilts normals. In 2d translate and scale are the transforms; rotating any 2d mesh with a vertex panics.", "quantifier": "all payloads, vectors, rotations and parameters over any commutative ring; all 2d meshes", "why_tests_cant": "identities between real-valued functions of many variables; the bevy payloads have no tests", "anchors": ["src/extensions/bevy/vertex_payload_3d.rs", "src/extensions/bevy/vertex_payload_2d.rs", "src/mesh/mesh/transform.rs: rotate"]}
{"id": "C86", "title": "Comparison of curved meshes", "statement": "If is_trivially_isomorphic_pos_curved accepts two consistent meshes, every point of every straight or curved edge is, at the same parameter, within eps of the point of the edge with the same id in every coordinate. Conversely, consistent meshes with the same links, positions and control points within eps are accepted.", "quantifier": "all pairs of consistent meshes with any curved edges, all tolerances, all parameters in [0,1], all dimensions", "why_tests_cant": "real parameters, unbounded meshes; the comparison is itself used as the oracle of tests", "anchors": ["src/mesh/mesh/basics.rs: is_trivially_isomorphic_pos_curved, is_trivially_isomorphic_ex", "src/mesh/edge/curved.rs: is_about, point_at"]}
{"id": "C87", "title": "Centroids, orientation of polygons, segments", "statement": "The centroid of a mesh, a face or an edge is the one point about which the positions of its vertices cancel (NaN for a mesh without vertices). It lies in every half-space that contains the vertices, minimises the sum of squared distances and commutes with every affine transformation of the mesh. For straight edges it is the point at 1/2; for a quadratic edge it is that point only if the control point is the middle of the ends. Every polygon is counter-clockwise or clockwise, both exactly if its signed area is zero; reversal exchanges the two and the start does not matter. The midpoint of a segment is halfway between its ends.", "quantifier": "all consistent meshes, faces of any size, all real positions, all affine transformations, all polygons", "why_tests_cant": "unbounded meshes and real positions; tests compare single values", "anchors": ["src/mesh/mesh/position.rs: centroid", "src/mesh/face/mod.rs: centroid", "src/mesh/edge/basics.rs: centroid", "src/math/vector.rs: stable_mean", "src/math/polygon.rs: area, is_ccw, is_cw", "src/math/line_segment.rs: length, length_squared, midpoint"]}
{"id": "C88", "title": "Angles, spherical coordinates, spherical interpolation", "statement": "angle_between is the angle of the law of cosines in [0,pi] in space and the signed angle in [-pi,pi] in the plane; vectors shorter than eps give zero. cartesian after spherical is the identity on all vectors, spherical after cartesian on all coordinates with positive radius away from the poles. slerp of unit vectors gives, for every t, the unit vector of their plane at t times the angle from the first and 1-t times the angle from the second, and the given vectors at 0 and 1. The comment in slerp promises linear interpolation for small angles; the first vector is returned for every t instead, also for t = 1, where the second was meant. Opposite vectors divide by zero.", "quantifier": "all real vectors, tolerances and parameters", "why_tests_cant": "real inputs; the exceptional cases are thin sets that random tests miss", "anchors": ["src/math/vector.rs: angle_between", "src/math/vector3d.rs: spherical, cartesian, slerp", "src/math/vector2d.rs: angle_tri"]}
{"id": "C89", "title": "Rotations of the plane", "statement": "The rotation by an angle keeps inner products and signed areas, turns every vector by that angle, and rotations compose by adding angles. The rotation from one nonzero vector to another takes the direction of the first to that of the second, opposite vectors included, by at most half a turn, and is the same with nalgebra and with Bevy. For a zero vector nalgebra gives the identity and glam divides by zero.", "quantifier": "all angles and all real vectors of the plane", "why_tests_cant": "real inputs; the exceptional cases are thin sets that random tests miss", "anchors": ["src/extensions/nalgebra/math/rotate.rs: from_angle, from_rotation_arc", "src/extensions/bevy/math/vec2.rs: from_rotation, from_rotation_arc"]}
{"id": "C90", "title": "The search tree of the sweep line", "statement": "The position of an edge at a height lies on the edge. Edges without a common point compare by their order from right to left at every height both reach, so the order of the tree stays right as the sweep line moves; insertion, removal and the delayed construction keep the order, change the set of edges as they should, and their assertions hold; the operations of the status keep tree and stored intervals in step. For disjoint intervals the binary search gives exactly what the linear search gives; in a debug build at every position inside an interval. Outside of the intervals but right of a left edge the debug build panics, because the answer of the tree is compared with the linear search before it is checked, although the caller means to treat the vertex as a late start. So the debug build panics on a simple polygon with nine vertices, two towers of which the lower has a flat top, where the release build gives the seven triangles. What the sweep with the tree returns covers the polygon.", "quantifier": "all finite sets of rational edges and intervals, all positions and heights", "why_tests_cant": "the order must hold for every set of edges at every height; tests see a few polygons", "anchors": ["src/tesselate/sweep/status.rs: SLISorter, insert, remove_left, remove_right, tree_sanity_check, find_btree, init_btree"]}
{"id": "C91", "title": "Binomial coefficients", "statement": "binomial gives the numbers of Pascal's triangle (zero beyond the row) as long as the products on the way fit the integer type, although it divides at every step; otherwise a debug build panics. A result that fits is not always given: 34 over 17 fits in 32 bits, but a product on the way does not.", "quantifier": "all n, k and capacities", "why_tests_cant": "all n and k; the overflow boundary", "anchors": ["src/tesselate/min_weight_dynamic.rs: binomial"]}
