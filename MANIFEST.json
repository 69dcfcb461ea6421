{"claims":[
{"property": "C01", "status": "proved", "theorems": ["C01_arena_refines_map", "C01_set_without_allocate_refuted"], "note": "Every history of push/allocate/set/delete/get respecting the allocate-then-set discipline refines a finite map; dropping the discipline is refuted."},
{"property": "C02", "status": "proved", "theorems": ["C02_len_counts_iter", "C02_capacity"], "note": ""},
{"property": "C03", "status": "proved", "theorems": ["C03_reachable_consistent", "C03_step_consistent", "C03_via_edge_in_face_refuted", "C03_via_edge_not_consecutive_refuted", "C03_insert_edge_in_face_refuted", "C03_self_loop_refuted", "C03_flip_dangling_refuted"], "note": "Consistency of every mesh reachable in a debug build under the preconditions a debug build does not check (bpre). The refuted theorems show that each precondition is needed: without it a debug build silently produces an inconsistent mesh."},
{"property": "C04", "status": "proved", "theorems": ["C04_check_iff_documented", "C04_check_terminates", "C04_check_accepts", "C04_check_misses_shared_face_refuted", "C04_check_rejects_paths_refuted"], "note": "check() decides exactly the documented invariants; it terminates on every mesh. Findings (refuted theorems): it accepts meshes in which two loops share one face, and it rejects consistent meshes with an edge that has no face on either side."},
{"property": "C05", "status": "proved", "theorems": ["C05_face_traversal", "C05_face_size", "C05_face_edges_complete"], "note": ""},
{"property": "C06", "status": "proved", "theorems": ["C06_vertex_wheel"], "note": ""},
{"property": "C07", "status": "proved", "theorems": ["C07_shared_edge"], "note": ""},
{"property": "C08", "status": "proved", "theorems": ["C08_add_vertex_via_edge", "C08_total", "C08_add_vertex_via_vertex", "C08_add_vertex", "C08_add_isolated_edge"], "note": "Effect, frame and totality."},
{"property": "C09", "status": "proved", "theorems": ["C09_insert_edge", "C09_insert_edge_no_check", "C09_total"], "note": "Effect, frame and totality."},
{"property": "C10", "status": "proved", "theorems": ["C10_close_hole", "C10_close_hole_total", "C10_close_hole_panics", "C10_close_face", "C10_close_face_total", "C10_close_face_vertices"], "note": "Effect, frame, totality and panic on occupied loops."},
{"property": "C11", "status": "proved", "theorems": ["C11_remove_face", "C11_remove_face_total", "C11_close_then_remove", "C11_remove_then_close"], "note": ""},
{"property": "C12", "status": "proved", "theorems": ["C12_insert_edge_between", "C12_release", "C12_total"], "note": ""},
{"property": "C13", "status": "proved", "theorems": ["C13_flip_edge", "C13_flip_edge_total", "C13_flip_twice", "C13_flip_mesh", "C13_flip_mesh_dangling_refuted"], "note": "For edges that are not dangling; flipping a dangling edge breaks the mesh (refuted theorems)."},
{"property": "C14", "status": "proved", "theorems": ["C14_insert_vertices_into_edge", "C14_other_origin_refuted"], "note": "For origins with exactly two edges; for every other origin the result is inconsistent (refuted theorem). flatten_curved_edges, its only client, is not modelled."},
{"property": "C15", "status": "proved", "theorems": ["C15_import_mesh", "C15_isolated_refuted", "C15_curved_refuted"], "note": "Exact: a renamed copy if every vertex has an edge and no half-edge is its own successor, otherwise a panic. Isolated vertices panic and curved flags are lost (refuted theorems). The mesh payload is not modelled."},
{"property": "C16", "status": "proved", "theorems": ["C16_path", "C16_path_short", "C16_loop", "C16_polygon", "C16_dihedron_refuted", "C16_dihedron_release_refuted"], "note": "For every n>=3 (paths n>=2). The face of insert_polygon runs opposite to the payload order. insert_dihedron never works: it panics in debug builds and leaves an inconsistent mesh in release builds (refuted theorems)."},
{"property": "C17", "status": "proved", "theorems": ["C17_fill_hole_apex", "C17_repeated_vertex_refuted"], "note": "For loops whose vertices are distinct; a loop that visits the first vertex twice is closed too early (refuted theorem)."},
{"property": "C18", "status": "proved", "theorems": ["C18_loft_polygon_back", "C18_loft_polygon", "C18_extrude", "C18_extrude_face"], "note": "loft_polygon and loft_polygon_back for quads (n = m = 2) on closed loops, extrude, extrude_face."},
{"property": "C19", "status": "proved", "theorems": ["C19_loft_tri", "C19_loft_tri_back", "C19_extrude_tri"], "note": "loft_tri_closed, loft_tri_back_closed and extrude_tri, for loops without self-loop edges. loft_tri_back_closed returns a half-edge inside the ring, not on the new boundary."},
{"property": "C20", "status": "proved", "theorems": ["C20_pyramid", "C20_pyramid_numbers", "C20_frustum", "C20_frustum_numbers", "C20_prism", "C20_cuboid", "C20_antiprism", "C20_antiprism_numbers", "C20_bipyramid", "C20_bipyramid_numbers", "C20_icosahedron", "C20_icosahedron_numbers", "C20_uv_sphere", "C20_uv_sphere_numbers"], "note": "Stronger than counting: each solid is described as an indexed face set; the numbers follow."},
{"property": "C21", "status": "proved", "theorems": ["C21_loop_subdivision", "C21_frequency", "C21_linear", "C21_frequency_panics", "C21_boundary_refuted", "C21_closed_refuted"], "note": "For closed triangle meshes without self-loops; with a boundary or a self-loop the result is inconsistent (refuted theorems). The interpolator is any function of the three payloads; the shape of the result is described triangle by triangle, not only counted."},
{"property": "C22", "status": "proved", "theorems": ["C22_shortest_path"], "note": ""},
{"property": "C23", "status": "proved", "theorems": ["C23_simple_edges", "C23_adjacency", "C23_adjacency_panics", "C23_degree", "C23_laplacian", "C23_self_loop_refuted"], "note": "Simple edges hold for everything built in a debug build without connecting a vertex to itself (proved); debug builds do accept such an edge, and then a row sum is not zero (refuted theorem)."},
{"property": "C24", "status": "proved", "theorems": ["C24_is_isomorphic_by_sound", "C24_is_isomorphic_sound", "C24_parallel_refuted"], "note": "For a first mesh without parallel edges; with parallel edges false (refuted theorem)."},
{"property": "C25", "status": "proved", "theorems": ["C25_is_trivially_isomorphic", "C25_connectivity_refuted"], "note": "The intended stronger claim is false (refuted theorem)."},
{"property": "C26", "status": "proved", "theorems": ["C26_equal_up_to_rotation", "C26_empty_refuted"], "note": "For non-empty lists; two empty lists are reported different (refuted theorem)."},
{"property": "C27", "status": "proved", "theorems": ["C27_fan_triangulates", "C27_fan_total", "C27_triangulation_size_and_boundary"], "note": ""},
{"property": "C28", "status": "proved", "theorems": ["C28_quad_triangulates", "C28_small_triangulates", "C28_small_total", "C28_even_corners_convex", "C28_even_corner_reflex", "C28_clockwise", "C28_shorter_diagonal_refuted", "C28_valid_diagonal_refuted"], "note": "Coverage and the exact choice of the diagonal are proved. The claim about the choice is false (refuted theorems): strictly convex counter-clockwise quads are always cut along 1-3 even if 0-2 is shorter, and a reflex corner 0 or 2 with |02| <= |13| gets the invalid diagonal."},
{"property": "C29", "status": "proved", "theorems": ["C29_ear_clipping_triangulates", "C29_ear_clipping_terminates"], "note": "For every outcome of the predicates and of the random generator; the triangles have the reverse orientation (see C30)."},
{"property": "C30", "status": "proved", "theorems": ["C30_ear_clipping_winding_refuted"], "note": "Finding: false for ear clipping, which always emits the opposite winding (refuted theorem); the other algorithms' winding is covered by their own properties."},
{"property": "C31", "status": "proved", "theorems": ["C31_minimum_weight", "C31_small_panics"], "note": "Weights are any commutative ordered monoid (exact arithmetic); diagonal validity is an arbitrary table."},
{"property": "C32", "status": "proved", "theorems": ["C32_index_injective", "C32_get_set", "C32_new"], "note": ""},
{"property": "C33", "status": "proved", "theorems": ["C33_linear_triangulates", "C33_linear_invariant", "C33_linear_total"], "note": ""},
{"property": "C34", "status": "proved", "theorems": ["C34_dynamic_delegates", "C34_dynamic_triangulates", "C34_dynamic_minimum"], "note": ""},
{"property": "C35", "status": "proved", "theorems": ["C35_flip_edge", "C35_flip_total", "C35_flip_covers"], "note": ""},
{"property": "C36", "status": "proved", "theorems": ["C36_delaunay_like_linear", "C36_delaunay_triangulates", "C36_delaunay_invariant", "C36_repeated_mesh_vertex_refuted", "C36_repeated_entry_refuted"], "note": "For distinct vertices and distinct mesh indices; with a repeated vertex the Delaunay variant may panic where the linear one finishes (refuted theorems). That the result satisfies the Delaunay condition is not claimed: the predicates are arbitrary."},
{"property": "C37", "status": "proved", "theorems": ["C37_sweep_linear_covers", "C37_sweep_dynamic_covers", "C37_sweep_delaunay_covers", "C37_sweep_small_covers", "C37_sweep_small_delaunay_covers", "C37_open_intervals_refuted"], "note": "For the linear, the dynamic and the Delaunay triangulator, every event order, classification and search answer; a finding shows that open intervals go unnoticed."},
{"property": "C38", "status": "proved", "theorems": ["C38_non_degenerate", "C38_total_edge_weight", "C38_no_intersections", "C38_all_indices_used", "C38_checks_all_triangles_refuted", "C38_verify_area_refuted", "C38_verify_area_accepts_refuted"], "note": "Exact behaviour proved; the claim is false (refuted theorems): triangles are skipped if the buffer was not empty, and verify_area accepts any area between 0 and twice the reference."},
{"property": "C39", "status": "proved", "theorems": ["C39_dense_vertices", "C39_sparse_vertices", "C39_sparse_remap_refuted"], "note": "Dense arenas: proved. Sparse arenas (latent: the builder API never deletes a vertex): exact behaviour proved and the claim refuted."},
{"property": "C40", "status": "proved", "theorems": ["C40_flat_normals", "C40_flat_in_range"], "note": ""},
{"property": "C41", "status": "proved", "theorems": ["C41_power_of_point", "C41_in_circle", "C41_in_circle_clockwise", "C41_circumcentre"], "note": "Exact arithmetic. The determinant is orientation times power of the point; so for clockwise triangles the answer is reversed (proved too)."},
{"property": "C42", "status": "proved", "theorems": ["C42_signed_area", "C42_rotate", "C42_reverse", "C42_translate", "C42_small", "C42_triangles"], "note": "Exact arithmetic, any commutative ring."},
{"property": "C43", "status": "proved", "theorems": ["C43_neumaier", "C43_kahan"], "note": "Exact arithmetic, any commutative ring; says nothing about rounding."},
{"property": "C44", "status": "proved", "theorems": ["C44_casteljau", "C44_endpoints", "C44_reverse", "C44_convex_hull", "C44_flatten_uniform"], "note": ""},
{"property": "C45", "status": "proved", "theorems": ["C45_flatten", "C45_terminates"], "note": "Also proves termination for every curve and positive tolerance in exact arithmetic."},
{"property": "C46", "status": "proved", "theorems": ["C46_quadratic_error", "C46_cubic_error_refuted"], "note": "Proved for linear and quadratic edges; false for cubic edges (refuted theorem): only the midpoint is tested."},
{"property": "C47", "status": "proved", "theorems": ["C47_chain", "C47_identity", "C47_assoc", "C47_translation", "C47_constructors", "C47_apply_vec", "C47_scale", "C47_scale_uniform", "C47_scale_diagonal", "C47_scale_after_refuted"], "note": "All parts proved except with_scale, which is false for non-uniform scales of non-diagonal transforms (refuted theorem; exact behaviour and the uniform and diagonal cases are proved)."},
{"property": "C48", "status": "proved", "theorems": ["C48_chain_order", "C48_chain_affine", "C48_chain_refuted", "C48_scale", "C48_scale_refuted", "C48_translation", "C48_apply_vec"], "note": "Finding: false (refuted theorems). chain applies other first; with_scale touches only the diagonal. Exact behaviour proved."},
{"property": "C49", "status": "proved", "theorems": ["C49_positive_complete", "C49_positive_sound", "C49_strictly_positive_refuted", "C49_abs"], "note": "Finding: false at plus zero (refuted theorem) and for NaNs without sign; exact characterisation on bit patterns proved."},
{"property": "C50", "status": "proved", "theorems": ["C50_common_point", "C50_none"], "note": "Exact arithmetic, any tolerances."},
{"property": "C51", "status": "proved", "theorems": ["C51_inside", "C51_inside_exact"], "note": "For any answer of the sign tests at zero; exact for strict sign tests."},
{"property": "C52", "status": "proved", "theorems": ["C52_newell", "C52_translate", "C52_reverse_rotate", "C52_planar"], "note": "Exact arithmetic, any commutative ring."},
{"property": "C53", "status": "proved", "theorems": ["C53_push_never_aliases", "C53_allocate_returns_sentinel_refuted"], "note": "push refuses to hand out an id past the capacity; allocate alone does not."},
{"property": "C54", "status": "proved", "theorems": ["C54_cylinder_refuted", "C54_smooth_frustum_refuted", "C54_insert_antiprism_refuted"], "note": "The intended claim is false: cylinder, smooth frusta and insert_antiprism panic for every size."},
{"property": "C55", "status": "proved", "theorems": ["C55_twin_edges", "C55_twin_edges_count"], "note": ""},
{"property": "C56", "status": "proved", "theorems": ["C56_size_hint_off_by_one", "C56_exact_size_refuted"], "note": "The property as documented (exact size) is false; the exact behaviour is proved and the exactness refuted."},
{"property": "C57", "status": "proved", "theorems": ["C57_simple_polygon_linear_refuted", "C57_simple_polygon_dynamic_refuted", "C57_simple_polygon_delaunay_refuted"], "note": "The property is false; the refuted theorems give a simple pentagon on which the sweep panics."},
{"property": "C58", "status": "proved", "theorems": ["C58_slerp_subdivision", "C58_geodesic_icosahedron", "C58_geodesic_octahedron", "C58_geodesic_tetrahedron_refuted", "C58_geodesic_panics"], "note": "Over the exact reals (axioms of Coq.Reals and Coq.Logic, listed in DESIGN.md). With a positive EPS arcs shorter than sqrt(EPS) are not divided, so triangles may degenerate: they are then only shown not to be turned inside out; with EPS = 0 in a release build all triangles are proper. For geodesic_tetrahedron the claim is false (refuted theorem)."},
{"property": "C59", "status": "proved", "theorems": ["C59_contains", "C59_winding", "C59_valid_diagonal", "C59_boundary_refuted", "C59_diagonal_refuted"], "note": "Over the rationals. Off the boundary the answer is exact for every polygon with a triangulation; on the boundary the test is inconsistent (refuted theorem). valid_diagonal is characterised exactly for corners that are not neighbours and whose midpoint is off the boundary; without the latter it can accept segments along the boundary (refuted theorem)."},
{"property": "C60", "status": "proved", "theorems": ["C60_path", "C60_polygon", "C60_close_open_refuted", "C60_close_point", "C60_svg", "C60_svg_open_refuted", "C60_svg_subpaths_refuted"], "note": "For paths of new vertices (start_ex, line_ex, then line_to the start and close) and for SVG paths with one subpath. Drawing to already existing vertices is not covered. The automatic closing of open paths, the import of paths that rely on it and of several subpaths are refuted."},
{"property": "C61", "status": "proved", "theorems": ["C61_links", "C61_edge_points", "C61_translate", "C61_chain", "C61_angles", "C61_face_normal", "C61_mirror_refuted", "C61_scale_refuted"], "note": "For the nalgebra vertex payload and the curved edge payload; links and ids for arbitrary payload transforms. That stored normals stay normals is refuted for mirroring and scaling. The bevy payloads are not modelled."},
{"property": "C62", "status": "proved", "theorems": ["C62_flatten", "C62_left", "C62_points_exist", "C62_error", "C62_still_curved_refuted", "C62_both_curved_refuted", "C62_branching_refuted"], "note": "Under the stated conditions on the curved half-edges. The documented postcondition is refuted, as are the cases of curves in both half-edges and of branching origins."},
{"property": "C63", "status": "proved", "theorems": ["C63_convex", "C63_planar", "C63_planar_sound", "C63_planar_panics", "C63_naive_normal", "C63_self_intersections", "C63_simple", "C63_star_refuted", "C63_pentagram_refuted", "C63_straight_refuted", "C63_planar_small_refuted", "C63_planar_collinear_refuted", "C63_simple_refuted", "C63_thin_refuted"], "note": "What each test decides is proved exactly (for is_convex on planar faces without straight corners); the intended meaning is refuted in the listed cases. Exact arithmetic; the rotation of the face into the plane (vertices_2d) is not modelled."},
{"property": "C64", "status": "proved", "theorems": ["C64_mesh_triangulation", "C64_watertight", "C64_ear_clipping", "C64_ear_clipping_refuted", "C64_small_faces", "C64_fan", "C64_degenerate", "C64_unimplemented", "C64_unplaced", "C64_payloads"], "note": "The intended claim (consistent winding for every algorithm) is refuted for ear clipping and the exact condition is proved. The sweeps and the Delaunay triangulation enter as oracles assumed to triangulate every polygon they do not refuse (sweep: C37, C57; spade is not modelled)."},
{"property": "C65", "status": "proved", "theorems": ["C65_glyph", "C65_text", "C65_points", "C65_closing_cubic_refuted", "C65_two_segments_refuted", "C65_open"], "note": "The intended claim (outlines are drawn as given) is refuted for outlines that end with a cubic, with the exact condition proved, and for outlines of two segments. The font library is represented by the outlines, advances and kernings it returns."},
{"property": "C66", "status": "proved", "theorems": ["C66_smooth", "C66_nonplanar_panics", "C66_points", "C66_flat", "C66_outward", "C66_rigid", "C66_two_sided_refuted", "C66_isolated_refuted"], "note": "Positions are real numbers, no rounding. 0/0 enters as an opaque vector. The debug assertion on planarity enters as a boolean per face. generate_flat_normals is todo! in the code."},
{"property": "C67", "status": "proved", "theorems": ["C67_pyramid", "C67_frustum", "C67_prism", "C67_uniform_prism", "C67_antiprism", "C67_uniform_antiprism_refuted", "C67_uv_sphere", "C67_cuboid", "C67_icosahedron", "C67_octahedron", "C67_tetrahedron", "C67_polygon", "C67_star", "C67_icosahedron_radius", "C67_star_odd_refuted"], "note": "Positions are real numbers, no rounding; sin, cos and PI are exact. Circumscribed spheres are stated for UV spheres, polygons and the Platonic solids. The planarity assertion of Face3d::normal in debug builds is left out (the base of a prism is flat)."},
{"property": "C68", "status": "proved", "theorems": ["C68_hem", "C68_numbers", "C68_open", "C68_lengths_refuted"], "note": "The open hem is stated for boundary loops that visit no vertex twice; loops that are too short for one more polygon and surplus payloads are only covered by C68_lengths_refuted."},
{"property": "C69", "status": "proved", "theorems": ["C69_debug_refuted", "C69_release_refuted", "C69_mesh", "C69_geometry", "C69_positions_refuted"], "note": "Positions are real numbers, PHI is exact. The intended claim is false of the code (C69_debug_refuted, C69_release_refuted); the repaired calls are proved."},
{"property": "C70", "status": "proved", "theorems": ["C70_trail", "C70_patch", "C70_at_once", "C70_start_at", "C70_start_at_refuted", "C70_close_open_refuted"], "note": "The vertices have one boundary corner each (sole): insert_edge_between takes the first one it finds. The intended claim about start_at is false (C70_start_at_refuted)."},
{"property": "C71", "status": "proved", "theorems": ["C71_plane", "C71_area", "C71_area_normal", "C71_level", "C71_level_lengths", "C71_panics", "C71_downward", "C71_cuboid_refuted", "C71_placed", "C71_positions", "C71_bevy", "C71_bevy_placed", "C71_axis_angle", "C71_quaternion", "C71_arc", "C71_arc_bevy"], "note": "Over the real numbers. rotation_between of nalgebra 0.34.1 and from_rotation_arc of glam 0.30.8 are external and transcribed from their published sources. The intended claim is false for faces that look straight down (C71_panics, C71_downward, C71_cuboid_refuted)."},
{"property": "C72", "status": "proved", "theorems": ["C72_areas", "C72_ear_clipping_refuted", "C72_pyramid", "C72_bipyramid", "C72_prism", "C72_regular_pyramid", "C72_regular_frustum", "C72_regular_prism", "C72_regular_antiprism", "C72_cuboid", "C72_tetrahedron", "C72_icosahedron", "C72_octahedron"], "note": "Over the real numbers. The intended claim is false for ear clipping, which turns faces over (C72_ear_clipping_refuted)."},
{"property": "C73", "status": "proved", "theorems": ["C73_delaunay", "C73_mesh", "C73_chord_refuted"], "note": "Over the real numbers; the spade crate is an oracle whose result is assumed to be a constrained triangulation of the points. The intended claim is false without the condition on edges elsewhere (C73_chord_refuted)."},
{"property": "C74", "status": "proved", "theorems": ["C74_decides", "C74_decides_by", "C74_total", "C74_given_map", "C74_import", "C74_positions_refuted", "C74_parallel_refuted"], "note": "The converse of C24 together with it. The intended claim is false with parallel edges (C74_parallel_refuted) and for is_isomorphic_pos (C74_positions_refuted)."},
{"property": "C75", "status": "proved", "theorems": ["C75_export", "C75_flat_export", "C75_counted", "C75_algorithms", "C75_wide_indices_refuted", "C75_other_targets"], "note": "The claim for all index types is false: C75_wide_indices_refuted. With deleted vertices and without flat normals the indices are wrong (C39)."},
{"property": "C76", "status": "proved", "theorems": ["C76_zigzag", "C76_zigzag_events", "C76_zigzag_refuses", "C76_zigzag_two_refuted", "C76_random_star", "C76_zero_radius_refuted"], "note": "Zigzags over the rationals (with infinite and undefined values explicit), stars over the reals. The claim for n = 2 is false (C76_zigzag_two_refuted)."},
{"property": "C77", "status": "proved", "theorems": ["C77_to_nd", "C77_tolerance", "C77_isolated_refuted", "C77_branching_refuted"], "note": "The claim for all meshes is false: C77_isolated_refuted, C77_branching_refuted."},
{"property": "C78", "status": "proved", "theorems": ["C78_rotation", "C78_constructors", "C78_chain3", "C78_chain3_exact", "C78_chain3_refuted", "C78_chain3_shear_refuted", "C78_scale3", "C78_scale3_refuted", "C78_translation3", "C78_translation3_refuted", "C78_apply_vec3", "C78_apply_vec3_refuted", "C78_normal_moves", "C78_affine2", "C78_chain2_refuted"], "note": "The documented claims are false: C78_chain3_refuted, C78_chain3_shear_refuted, C78_scale3_refuted, C78_translation3_refuted, C78_apply_vec3_refuted, C78_chain2_refuted. The formulas of Bevy's Transform and glam's Quat and Affine2 are trusted."},
{"property": "C79", "status": "proved", "theorems": ["C79_pair_edges"], "note": ""},
{"property": "C80", "status": "proved", "theorems": ["C80_adjacency", "C80_adjacency_panics", "C80_laplacian", "C80_laplacian_refuted"], "note": "The intended claim (the rows of laplacian_euclidean sum to zero) is false: C80_laplacian_refuted."},
{"property": "C81", "status": "proved", "theorems": ["C81_constructors", "C81_made", "C81_with_scale", "C81_add", "C81_chain_refuted", "C81_scale_refuted"], "note": "The documented claims about chain and with_scale are false: C81_chain_refuted, C81_scale_refuted. from_rotation is unfinished in the code (todo!)."},
{"property": "C82", "status": "proved", "theorems": ["C82_shared_face", "C82_panics"], "note": ""},
{"property": "C83", "status": "proved", "theorems": ["C83_flip", "C83_twice", "C83_normal", "C83_stored_refuted"], "note": "The intended claim that stored normals follow is false: C83_stored_refuted."},
{"property": "C84", "status": "proved", "theorems": ["C84_document", "C84_text_panics", "C84_transformations_ignored", "C84_position_refuted"], "note": "The parser usvg is an arbitrary function. Refuted: positions of transformed elements."},
{"property": "C85", "status": "proved", "theorems": ["C85_methods", "C85_translate_refuted", "C85_scale_refuted", "C85_normals", "C85_tilt_refuted", "C85_lerp", "C85_payload2", "C85_rotate2_panics"], "note": "glam's lerp and mul_vec3 are modelled by their formulas. Refuted: translate and scale as transforms, normals under non-uniform scale."},
{"property": "C86", "status": "proved", "theorems": ["C86_accepted", "C86_accepts"], "note": "Exact arithmetic over Q."},
{"property": "C87", "status": "proved", "theorems": ["C87_mesh", "C87_face", "C87_edge", "C87_unique", "C87_inside", "C87_least", "C87_mesh_image", "C87_face_image", "C87_straight", "C87_curved", "C87_orientation", "C87_reverse", "C87_rotate", "C87_midpoint"], "note": "Over the real numbers; NaN is an arbitrary vector."},
{"property": "C88", "status": "proved", "theorems": ["C88_angle", "C88_short", "C88_plane", "C88_spherical", "C88_cartesian", "C88_slerp", "C88_slerp_ends", "C88_slerp_near", "C88_slerp_near_refuted", "C88_slerp_opposite"], "note": "Over the real numbers; a division by zero is None. The interpolation of near vectors is refuted (C88_slerp_near_refuted)."},
{"property": "C89", "status": "proved", "theorems": ["C89_angle", "C89_add", "C89_arc", "C89_zero"], "note": "Over the real numbers; a division by zero is None; the called functions of nalgebra and glam are modelled by their formulas."},
{"property": "C90", "status": "proved", "theorems": ["C90_position", "C90_order", "C90_sweep", "C90_insert", "C90_remove", "C90_init", "C90_status_insert", "C90_status_remove_left", "C90_status_remove_right", "C90_unique", "C90_find", "C90_find_debug", "C90_debug_refuted", "C90_large_covers", "C90_large_delaunay_covers", "C90_castle_refuted"], "note": "BTreeSet is modelled by the ascending list of its elements; rational coordinates. The panics outside the intervals are C90_debug_refuted and C90_castle_refuted."},
{"property": "C91", "status": "proved", "theorems": ["C91_binomial", "C91_beyond", "C91_panics", "C91_overflow_refuted"], "note": "Debug build; the capacity of the integer type is a parameter. Not called elsewhere in the code."}
]}
