# Formal model of bevy-procedural/modelling in Rocq (Coq 8.16.1)

## Method

The Rust sources under /repo/src are read as text and transcribed function by function into
small total computable Gallina functions (`rocq/theories/*`, files without a `Props` prefix).
Every definition cites the file and lines it models. Properties (`properties.jsonl`) are stated in
files `Props*.v` that contain only theorems (closed by `exact lemma`), `Print Assumptions` and
examples showing that hypotheses can be met.

Conventions

* A Rust computation returns `Ok a | Panic | Diverge`. `Panic` is an explicit panic, failed
  assert, unwrap of None or out-of-range index; `Diverge` means a loop ran out of its fuel. Theorems
  rule `Diverge` out where termination is claimed; nothing is proved by exhausting the fuel.
* `dbg : bool` selects whether `debug_assert!`s are evaluated (debug build) or skipped (release).
* Index types (`u8`..`usize`) are `nat` with a capacity parameter `cap` (the sentinel
  `IndexType::max()`), universally quantified. Sentinel-valued fields are `option nat`.
* `&mut self` becomes a returned new state.
* Payloads are arbitrary types/values.
* Geometry: coordinates live in an abstract commutative ring (algebraic identities), in Z/Q/R
  (ordered statements). Floating-point rounding is not modelled, except for C49. Where an algorithm
  branches on geometric predicates, the predicates are arbitrary oracles, so that
  theorems hold for every outcome, including numerically wrong ones.

## Layout and proof method per property

| id | model files | specification files | method | theorems in |
|----|-------------|---------------------|--------|-------------|
| C01, C02, C53 | DVec | ArenaSpec | invariant over arbitrary op histories, refinement to a finite map | PropsArena |
| C03 | Mesh, MeshMore | Spec, MeshSpec | invariant `wf` by induction over op sequences | PropsMesh |
| C04-C07, C55, C56 | Mesh, MeshMore | Spec, MeshSpec | check as independent statement; cyclic-list lemmas for the iterators | PropsMesh |
| C08-C13 | Mesh, MeshMore | MeshSpec | effect + frame + totality of every builder operation | PropsMesh |
| C16-C20, C54 | Mesh, Solid | BuildSpec, SolidSpec | one step lemma per primitive, induction on the length of the ring, indexed face sets | PropsBuild |
| C14 | Mesh | RefineSpec | one division as a graph rewrite, induction over the inserted vertices; broken link invariant for the other origins | PropsRefine |
| C15 | Mesh, Import | RefineSpec | id maps as positions in the iteration order, transfer of consistency along the renaming | PropsRefine |
| C21 | Mesh, Subdivision, Interpolate | SubdivSpec | every intermediate mesh described by an invariant over tagged half-edges (old, split, cut, centre), although it is inconsistent on the way | PropsSubdiv |
| C58 | Sphere, Interpolate, Subdivision | SphereSpec | the arc operation preserves "triangle around the centre", refinement of C21; determinants of the solids over R | PropsSphere |
| C22-C26 | Topo | TopoSpec | BFS level invariant; matrices as functions; soundness of the comparisons | PropsTopo |
| C27-C32, C35, C38 | Tess, Buffer, Geo | TriSpec, MinWeightSpec, GeoSpec, BufferSpec, VerifySpec | triangulation trees, chain sums of oriented edges, optimality by induction on intervals | PropsTess |
| C33, C34, C37, C57 | Monotone, Sweep | MonoSpec, MonoLaw, SweepSpec, PolySpec | invariant over arbitrary vertex sequences and predicate outcomes | PropsSweep |
| C36 | Monotone | MonoSpec, TriSpec | an edge flip maps triangulation trees to triangulation trees; the map of opposite vertices is sound for the triangles in the buffer; measure for the work list | PropsSweep |
| C39, C40 | Buffer | ExportSpec | refinement of the exported buffers | PropsExport |
| C41-C52 | Alg, GeoMath | AlgSpec, GeoMathSpec, CurveSpec | ring identities, order reasoning over Q, bit patterns | PropsMath |
| C59 | Polygon | InsideSpec, TriSpec | ideal crossing number is additive over a triangulation; walking across the inner edges from a containing triangle | PropsPolygon |
| C60 | PathBuilder | PathBSpec, BuildSpec | the end vertices of the path have a single half-edge, so insert_edge_between attaches there | PropsPath |
| C61 | Transform | TransSpec, AlgSpec | mapping payloads keeps the links; affine maps commute with Bezier points; the cofactor identity for rigid maps | PropsTrans |
| C62 | Flatten | FlattenSpec, BuildSpec | one division at a time; the origins of the other curved half-edges keep two edges; loops are rewritten piecewise | PropsFlatten |
| C63 | Face3 | Face3Spec | cross products are the turns times the plane normal; parity for alternating turns; projection on the plane | PropsFace |
| C64 | TriMesh | TriMeshSpec | sides of a loop are its half-edges rotated by one; chains cancel along twins | PropsTriMesh |
| C65 | Glyph | GlyphSpec | paths drawn so far (invariant of the pen) closed into rings; Bernstein polynomials from the other end | PropsGlyph |
| C66 | Normals | NormalsSpec | direction of a vector as a relation (unique); Newell sums of face boundaries; corners as permutations | PropsNormals |
| C67 | Regular (with Solid, Sphere) | RegularSpec | supporting planes per face; sign of products of sines; chords of the profile; Newell sums of rings | PropsRegular |
| C68 | Solid (loft_polygon_back) | HemSpec | invariant of the outer loop over blocks of half-edges; chains of vertices; counts from the grown mesh | PropsHem |
| C69 | Dodeca | DodecaSpec, RegularSpec | computation with symbolic payloads and capacities; signs in Z[golden ratio] | PropsDodeca |
| C70 | PathBuilder | PatchSpec, PathBSpec, BuildSpec | induction over the lines with the loop of the path as invariant | PropsPatch |
| C71 | Plane (with Normals, TriMesh) | PlaneSpec, PlaneRotSpec, NormalsSpec | rows of a rotation are orthonormal; Rodrigues' formula; telescoping sums along the boundary; Lagrange's identity | PropsPlane |
| C72 | TriMesh, Solid, Sphere, Regular | VolumeSpec, TriMeshSpec | additive functions of directed edges vanish on watertight sets; polygon sums telescope; regular polygons by trigonometry | PropsVolume |
| C73 | Cdt, TriMesh | CdtSpec, TriSpec, TriMeshSpec | a triangle is inside iff it continues across kept edges; the angle at a corner orders the edges of the triangles around it (wedges of a rotation less than a full turn) | PropsCdt |
| C74 | Topo, IsoPos | TopoSpec, IsoPosSpec | without parallel edges the edge found between two images is the image of the edge, so the face on the same side is the image of the face; counts agree by the bijections | PropsIsoComplete |
| C75 | Bevy, Buffer, TriMesh | BevySpec, TriMeshSpec | the vertex block of each face starts where the previous one ended and its map sends every corner into the block; removing every listed attribute leaves none | PropsBevy |
| C76 | Zigzag, Star, Sweep | PolySpec, StarSpec | each side is the graph of a line over one column, the chains differ by one except at the ends; sides of stars lie in sectors that have at most a ray in common | PropsGenerated |
| C77 | ToNd, Flatten, Import | ToNdSpec | the path of each half-edge in the divided mesh (C62) renamed by the import (C15); a divided mesh is importable because its loops only grow | PropsToNd |
| C78 | BevyTrans | AlgSpec | polynomial identities of the quaternion formulas; linearity of rotations | PropsBevyTrans |
| C79 | Winged | WingedSpec | the map after the ids below i holds exactly the smaller half-edges below i; sorting is a permutation | PropsWinged |
| C80 | NetEucl, Topo | NetEuclSpec, TopoSpec | fold over the half-edges; sums with support in the neighbours | PropsNetEucl |
| C81 | Mat5 | AlgSpec | evaluation of the loops on symbolic entries, ring identities; induction over the operations for the last row | PropsMat5 |
| C82 | SharedFace | Spec (on_face in SharedFaceProofs) | two nested searches over the wheels of the vertices | PropsSharedFace |
| C83 | FlipYz, Transform | TransSpec (mirrored in FlipYzProofs) | same links; cross products of mirrored vectors | PropsFlipYz |
| C84 | SvgDoc, PathBuilder | SvgDocSpec, PathBSpec | induction over the derivation of the outlines of a document, one polygon per step (C60) | PropsSvgDoc |
| C85 | BevyPayload, BevyTrans | TransSpec, AlgSpec | ring identities; the first vertex stops the loop | PropsBevyPayload |
| C86 | IsoCurved, Topo, Transform | TransSpec (near_curve in IsoCurvedProofs) | the difference of two Bezier curves is a convex combination of the differences of the control points | PropsIsoCurved |
| C87 | Centroid (with Alg, Transform) | CentroidSpec, PlaneSpec | deviations from the mean cancel; parallel axis theorem | PropsCentroid |
| C88 | Angles (with Cdt, Plane, Normals) | NormalsSpec | Cauchy-Schwarz; addition theorems | PropsAngles |
| C89 | Rot2 (with Angles, Cdt) | Rot2Proofs (dot2, perp2) | addition theorems; Lagrange's identity | PropsRot2 |
| C90 | SweepTree (with Sweep), SweepLarge | SweepTreeSpec | affine functions without a common zero keep their sign; sorted lists | PropsSweepTree |
| C91 | Binomial | BinomialProofs (pascal) | a row of Pascal's triangle by successive products | PropsBinomial |

## Trusted base

* Coq's kernel. `Print Assumptions` stands beneath every property theorem and answers "Closed under the
  global context" for all of them except theorems of C58, C66, C67, C69, C71, C72, C73, C76, C80 and C87 to C89 about the real numbers of the standard library,
  which use its axioms (and no other axiom; none is our own). What `Print Assumptions` lists for them:
  - Classical_Prop.classic, FunctionalExtensionality.functional_extensionality_dep,
    ClassicalDedekindReals.sig_forall_dec, ClassicalDedekindReals.sig_not_dec: C58_slerp_subdivision,
    C58_geodesic_icosahedron, C58_geodesic_octahedron, C58_geodesic_tetrahedron_refuted, C58_geodesic_panics,
    C71_plane, C71_level, C71_panics, C71_downward, C71_cuboid_refuted, C71_placed, C71_arc, C73_delaunay, C73_mesh, C73_chord_refuted, all of C88, C89_arc and C89_zero.
  - FunctionalExtensionality.functional_extensionality_dep, ClassicalDedekindReals.sig_forall_dec,
    ClassicalDedekindReals.sig_not_dec: C66_smooth, C66_nonplanar_panics, C66_rigid, C67_pyramid, C67_frustum,
    C67_prism, C67_uniform_prism, C67_antiprism, C67_uniform_antiprism_refuted, C67_uv_sphere, C67_icosahedron,
    C67_octahedron, C67_tetrahedron, C67_polygon, C67_star, C67_icosahedron_radius, C67_star_odd_refuted,
    C69_debug_refuted, C69_release_refuted, C69_geometry, C69_positions_refuted,
    C71_positions, C71_bevy, C71_bevy_placed, C71_axis_angle, C71_quaternion, C71_arc_bevy, C72_regular_pyramid, C72_regular_frustum, C72_regular_prism,
    C72_regular_antiprism, C72_tetrahedron, C72_octahedron, C72_icosahedron, C76_random_star, C76_zero_radius_refuted,
    C80_adjacency, C80_adjacency_panics, C80_laplacian, C80_laplacian_refuted, C87_midpoint, C89_angle, C89_add.
  - FunctionalExtensionality.functional_extensionality_dep, ClassicalDedekindReals.sig_forall_dec: C66_points,
    C66_flat, C66_outward, C66_two_sided_refuted, C66_isolated_refuted, C67_cuboid,
    C71_area, C71_area_normal, C71_level_lengths, C72_areas, C72_ear_clipping_refuted, C72_pyramid, C72_bipyramid,
    C72_prism, C72_cuboid, and all of C87 except C87_midpoint.
  - nothing (closed): C69_mesh.
* The transcription of the Rust code into Gallina (the citations above each definition). It was
  done by reading; the code is neither compiled nor run.
* The specification files named in the table: they say what the theorems mean.

## What is modelled

* src/util/deletable.rs: all of it (C01, C02, C53).
* src/halfedge/{edge,face,vertex}, src/halfedge/mesh: basics, iterators, queries, checks, and the builder
  (halfedge.rs, builder.rs, vertex.rs, semi.rs), including every
  `debug_assert!`, and import_mesh (C03-C16, C55, C56).
* src/operations/subdivision.rs and src/mesh/vertex/interpolator.rs (C21). The interpolator is any function
  that only reads the payloads of the three vertices; LinearVertexInterpolator is shown to be one; SlerpVertexInterpolator with Vector3D::slerp at 1/2 over the reals (C58).
* src/operations/{extrude,loft}.rs with rings of quads and of triangles on closed boundary loops (C17-C19);
  loft_polygon is proved for n = m = 2 there and loft_polygon_back for all n and m in C68.
* src/primitives/{prismatoid,sphere}.rs without dodecahedron and the plane/quad helpers (C20, C54). Positions are opaque
  payloads there; the geodesic spheres with their real positions are C58.
* src/mesh/{topology,path,..}: shortest path, adjacency/degree/Laplacian matrices, isomorphism tests (C22-C26).
* src/tesselate: convex fan, ear clipping, min-weight quad, min-weight dynamic program, fixed-n
  generator, linear/dynamic/Delaunay monotone triangulators, the sweep (C27-C37, C57).
* src/mesh/triangulation.rs and the vertex export (C38-C40).
* src/mesh/mesh/path_builder.rs without its (private, unused) transform, and import_path of src/extensions/svg/svg.rs (C60).
* src/mesh/mesh/transform.rs with the nalgebra vertex payload and the curved edge payload (C61); not the bevy payloads.
* flatten_curved_edges and has_curved_edges of src/mesh/mesh/basics.rs (C62).
* is_convex, is_planar, has_self_intersections, is_simple and normal_naive of src/mesh/face/face3d.rs (C63).
* triangulate_face of src/tesselate/mod.rs and triangulate of src/mesh/mesh/triangulate.rs, with sweep and Delaunay as oracles (C64).
* layout_text and draw_glyph_outlines of src/mesh/mesh/fonts.rs; the font file enters as outlines, advances, kernings and scale (C65).
* generate_smooth_normals of src/mesh/mesh/normals.rs over real numbers (C66); generate_flat_normals there is todo!.
* the positions of src/primitives/{polygon,prismatoid,sphere}.rs over real numbers (C67).
* loft_polygon_back for all n and m (C68), not only 2 and 2 (C18).
* src/primitives/sphere.rs dodecahedron (C69).
* src/mesh/mesh/path_builder.rs start_at, start_at_edge on existing boundaries (C70; the functions are in PathBuilder.v).
* src/mesh/face/face3d.rs vertices_2d and vec2s, over the reals, with both backends' from_rotation_arc (C71).
* Areas and volumes of the modelled solids and triangulations, over the reals (C72).
* delaunay_triangulation of src/tesselate/delaunay.rs with triangle_touches_boundary and the angle test, over the reals; spade is an oracle (C73).
* is_isomorphic_by_pos, is_trivially_isomorphic_pos and is_isomorphic_pos of src/mesh/mesh/basics.rs; nearness of positions is an arbitrary relation (C74).
* bevy_set_ex, bevy_indices, bevy_remove_attributes and to_bevy_ex of src/extensions/bevy/mesh3d.rs; Bevy's mesh is a record of the parts used (topology and usage as the asserted conditions, indices, attributes as a map); normals and triangulations of faces are given functions that may panic (C75).
* generate_zigzag and random_star of src/primitives/misc.rs; the random numbers are arbitrary numbers in the ranges (C76).
* to_nd and to_3d of src/extensions/nalgebra/mesh2d.rs and src/extensions/bevy/mesh2d.rs; both meshes use the same index types (C77).
* TransformTrait for Affine2 and for Bevy's Transform (src/extensions/bevy/math/vec2.rs, vec3.rs) and transform of the 3d vertex payload; the called functions of bevy and glam are modelled by their formulas, panics on NaN are not (C78).
* pair_edges of src/halfedge/mesh/pseudo_winged.rs; the hash map is a list read in an arbitrary order (C79).
* adjacency_matrix_euclidean and laplacian_euclidean of src/mesh/mesh/netsci.rs in exact arithmetic (C80).
* src/extensions/bevy/math/mat5.rs without the unfinished rotations, in exact arithmetic (C81).
* shared_face of src/halfedge/mesh/basics.rs (C82).
* flip_yz of src/halfedge/mesh/builder/vertex.rs in exact arithmetic (C83).
* import_group and import_svg of src/extensions/svg/svg.rs with an arbitrary parser in place of usvg (C84).
* translate, rotate, scale and lerp of the Bevy vertex payloads (C85).
* is_trivially_isomorphic_pos_curved of src/mesh/mesh/basics.rs and is_about of curves (C86).
* centroid of meshes, faces and edges, is_ccw, is_cw and area of polygons, length and midpoint of segments, over the reals (C87).
* angle_between, spherical, cartesian and slerp (all t, release build) of src/math/{vector,vector3d}.rs over the reals (C88).
* from_angle and from_rotation_arc for D = 2 of src/extensions/nalgebra/math/rotate.rs, from_rotation and from_rotation_arc of Affine2 in src/extensions/bevy/math/vec2.rs, over the reals; glam's approximate arc cosine is taken as exact (C89).
* SLISorter, insert, remove_left, remove_right, tree_sanity_check, find_btree and init_btree of src/tesselate/sweep/status.rs; std's BTreeSet is the ascending list of its elements (C90).
* binomial of src/tesselate/min_weight_dynamic.rs (C91).
* src/math: predicates, transforms, Bezier curves, Kahan/Neumaier sums, float sign tests (C41-C52), Polygon::contains and valid_diagonal (C59).

## Simplifications

* Exact arithmetic: rationals, an arbitrary commutative ring or (C58, C66, C67, C69, C71, C72, C73, C76, C80, C87, C88, C89) real numbers instead of floats (C49 works on bit patterns).
* Ids are unbounded `nat`; the capacities of the index types are parameters.
* Payload types are abstract. Closures passed by the caller are Gallina functions; those that may
  panic return `res`.
* Recursion depth, memory and running time are not modelled.

## Findings (all with a machine-checked witness)

* insert_dihedron panics in debug builds and builds a broken mesh in release builds (C16).
* cylinder, frustum(smooth = true) and insert_antiprism panic on every input (C54).
* fill_hole_apex stops early when the boundary loop visits the first vertex twice (C17).
* loft_tri_back_closed returns a half-edge inside the ring (C19); loft_polygon's documentation has the
  direction of the returned edge the wrong way round (C18).
* Debug builds accept several operations that break the mesh: adding through an edge in a face, through
  edges that are not consecutive, connecting a vertex to itself, flipping a dangling edge (C03, C13, C23).
* check() accepts meshes in which two loops share one face and rejects consistent paths (C04).
* insert_vertices_into_edge breaks the mesh unless exactly two edges meet at the origin (C14).
* import_mesh panics on isolated vertices and on one-edge loops and drops the curved flag of faces (C15).
* loop_subdivision breaks meshes with a boundary and closed meshes with an edge from a vertex to itself (C21).
* geodesic_tetrahedron passes the radius as edge length: its four corners are at 0.61 of the radius (C58).
* PathBuilder::close panics on every open path: it marks the path as closed and then calls line_to, which asserts that
  the path is not closed. So SVG paths that leave the last line to Z are never imported; paths with several subpaths
  are not either (C60).
* Polygon::contains answers yes on some and no on other points of the boundary; valid_diagonal accepts a pair whose
  segment runs along the boundary through a corner in between (C59).
* Stored normals are transformed like directions: after mirroring they point into the surface, after non-uniform scaling
  they are not perpendicular to it, after uniform scaling they are not of unit length (C61).
* flatten_curved_edges leaves curved edges curved whose flattening has no inner point, places vertices off the curve if both
  half-edges store the curve, and breaks the mesh if the origin has other than two edges (C62).
* is_convex accepts stars (alternating corners, as made by insert_regular_star) and pentagrams; is_planar accepts any face whose
  first three vertices are on a line and small skew faces; is_simple accepts polygons that touch or overlap themselves (C63).
* triangulate with EarClipping turns over exactly the faces with more than four vertices, because triangles and quads are
  handled before it: meshes that mix both get inconsistent winding (C64).
* draw_glyph_outlines stores the curve of the closing segment in the half-edge against the drawing direction, without exchanging the
  control points: an outline ending with a cubic gets a different curve. Outlines of two segments panic in debug builds (C65).
* generate_smooth_normals stores zero normals where the unit normals of the faces cancel (every vertex of a two-sided triangle) and 0/0
  at vertices without a face (C66).
* uniform_antiprism is not uniform for any number of sides: its height is that of an equilateral triangle instead of the distance of the
  two polygons (C67; the code has a TODO there). regular_star with an odd number of corners has two neighbours at the inner radius (C67).
* loft_polygon_back with more payloads than fit does not close the hem but goes on in a spiral, and panics for some loops whose length is
  no multiple of m - 1 (C68).
* dodecahedron starts its first hem on the half-edge from vertex 1 to vertex 0, which lies on the face and not on the boundary: panic with debug
  assertions, an inconsistent mesh without (C69). The playground has the comment "TODO: crash?" at its call. The five first points are also in
  the wrong direction, and the circumscribed sphere has radius sqrt 3 radius.
* PathBuilder::start_at takes the predecessor of whatever half-edge the vertex stores. If that lies in a face, lines are drawn through the
  boundary corner, but close panics with "The path is malformed" (C70): in a square made by insert_polygon this is so for all vertices but
  the first.
* nalgebra's rotation_between has no answer for opposite vectors and NdRotate::from_rotation_arc unwraps it: vertices_2d panics for every face
  whose normal points straight down (exactly or up to the machine epsilon). try_min_weight_small calls it for all faces with four to six
  vertices before any algorithm is chosen, so no axis-parallel cuboid can be triangulated with the nalgebra backend (C71). Bevy's
  rotation covers the case.
* Ear clipping turns faces over: the triangles of a pyramid over a pentagon have a total area vector other than zero, so the enclosed volume
  depends on the origin (C72).
* triangle_touches_boundary takes any edge between two corners for a side of the face: if two corners of a face are also joined elsewhere in the mesh,
  the Delaunay triangulation drops the triangle at this chord and leaves a hole (C73).
* is_isomorphic_pos is documented to identify the vertices by their positions, but compares vertices with equal ids only; and with parallel edges
  is_isomorphic_by may report a mesh different from itself, since only one of the parallel edges is found (C74).
* Meshes with Bevy vertex payloads whose vertex ids are usize cannot be exported: bevy_indices panics, although the
  conversion is offered for every index type; uv coordinates are never exported (C75).
* generate_zigzag(2) passes its assertion but divides by zero: the coordinates are not finite (C76).
* to_nd and to_3d panic on a mesh with an isolated vertex and return an inconsistent mesh if three edges meet where a divided
  curve starts; on the other hand the comment that flatten_curved_edges misses edges is harmless there: the missed edges are the ones
  that are within the tolerance of their chord (C77).
* In Bevy's 3d meshes apply_vec is apply: every translation is added to the normals. with_scale and with_translation overwrite the
  previous scale and translation, and chain composes in the other order than documented (also in 2d and 4d), so transforms of the path builder differ between the nalgebra and the Bevy backends (C78).
* laplacian_euclidean (netsci.rs:84-89) subtracts the distances from the numbers of edges, not from the sums of the distances, so its rows do not sum to zero (C80_laplacian_refuted).
* with_scale of the 4d transformations multiplies the diagonal only, although it is documented to scale previous translations (mat5.rs:145-152, C81_scale_refuted).
* flip_yz turns a mesh inside out and leaves the stored normals and control points of curves unmirrored (C83_normal, C83_stored_refuted).
* SVG import ignores the transformations of groups and paths (the line reading them is commented out): transformed elements are imported at the wrong place; texts and images panic (C84).
* Bevy 3d meshes: translate and scale treat the normals differently from the transform by the same translation or scale; scale keeps normals, which is wrong for different factors; rotate of 2d meshes is unfinished and panics (C85).
* EdgeBasics::centroid averages the two ends, so for curved edges it is not on the curve (C87).
* Vector3D::slerp returns the first vector for every t when the angle is below the square root of EPS, although the comment promises linear
  interpolation; at t = 1 that is not the second vector. For opposite vectors it divides by zero (C88).
* find_btree compares the answer of the tree with the linear search before it checks it: with more than eight vertices a debug build panics at a late
  start vertex ("reinterpret as start") that lies right of any left edge, e.g. on a simple
  polygon with two towers, the lower one with a flat top; the release build triangulates it (C90_castle_refuted).
* binomial overflows for results that fit, e.g. 34 over 17 in 32 bits (C91).
* DVec::set on a freed slot aliases; allocate alone may return the sentinel (C01, C53).
* size_hint of the face iterator is off by one (C56).
* is_isomorphic and is_trivially_isomorphic accept different meshes (C24, C25); equal_up_to_rotation says
  that two empty lists differ (C26).
* Ear clipping emits the opposite winding (C30); min_weight_quad picks the wrong diagonal in exactly
  described cases (C28).
* The sweep panics on some simple polygons and does not notice chains that were left open (C37, C57).
* The Delaunay monotone triangulator may panic at a repeated vertex where the linear one finishes (C36).
* verify_* skip triangles if the start index is not zero; verify_area is nearly vacuous (C38).
* dense_vertices does not remap indices for sparse arenas (C39).
* flatten_casteljau misses the error bound on cubic curves (C46); NdAffine::with_scale and Mat5::chain contradict their
  documentation (C47, C48); is_positive accepts +0.0 and NaN (C49); the in-circle test is reversed
  for clockwise triangles (C41).

## Not modelled

Floating-point rounding, the spade crate (Delaunay), parsing of SVG files and font files, rendering/bevy glue, random number generators
(their outcomes are universally quantified where they matter), performance.

Of the functions of the modelled files these are left out:

* minweight_dynamic_direct2 and minweight_greedy (`todo!()`, they always panic), and code that is commented out (e.g. in plane.rs);
* one-line wrappers of modelled functions: is_planar2, as_polygon, icosphere, cube, regular_star and the like on an empty mesh, get_index,
  next_pos and verify_full of src/mesh/triangulation.rs (its five parts are modelled), the coordinate swizzles;
* the debug output of the sweep (features sweep_debug, sweep_debug_print) and formatting that no theorem mentions.
* In the sweep with more than eight vertices the tree is rebuilt at each search (SweepTree.find_tree); C90_status_insert,
  C90_status_remove_left, C90_status_remove_right and C90_unique are about the tree the code keeps instead, but the two
  sweeps are not related by a theorem about whole runs.
