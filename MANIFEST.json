{
 "claims": [
  {
   "property": "C01",
   "status": "proved",
   "theorems": [
    "C01_kdtree_first_wins_map",
    "C01_size_no_wrap",
    "C01_size_wrap_refuted"
   ],
   "note": "size is modulo the size type; refuted theorem shows the wrap"
  },
  {
   "property": "C02",
   "status": "proved",
   "theorems": [
    "C02_nearest_is_nearest"
   ],
   "note": "exact reals"
  },
  {
   "property": "C03",
   "status": "proved",
   "theorems": [
    "C03_nearest_ieee",
    "C03_nearest_ieee_all_inserted",
    "C03_nan_root_refuted"
   ],
   "note": "every IEEE-754 binary format of precision > 2 (float, double, ...) through Flocq, finite points, overflow and underflow of distances included; assumes no FMA contraction or excess precision C03_nan_root_refuted: a NaN in the first inserted point makes every later query return that point."
  },
  {
   "property": "C04",
   "status": "partial",
   "theorems": [
    "C04_tolerant_equality_refuted",
    "C04_separated_points_partial"
   ],
   "note": "with a tolerant operator== the first-wins map is refuted; it holds for point sets on which == decides equality"
  },
  {
   "property": "C05",
   "status": "proved",
   "theorems": [
    "C05_interval_intersection",
    "C05_interval_complete",
    "C05_interval_exact",
    "C05_interval_ieee"
   ],
   "note": "exact reals and every IEEE binary format, any comparisons meeting the tolerance contract"
  },
  {
   "property": "C06",
   "status": "proved",
   "theorems": [
    "C06_box_growth",
    "C06_box_growth_exact"
   ],
   "note": "exact reals, every dimension"
  },
  {
   "property": "C07",
   "status": "partial",
   "theorems": [
    "C07_default_neutral_refuted",
    "C07_default_neutral_partial"
   ],
   "note": "false: the sentinels 1/-1 stay in the box; holds on axes where the items reach below 1 and above -1"
  },
  {
   "property": "C08",
   "status": "proved",
   "theorems": [
    "C08_extreme_points",
    "C08_make_aabb_tight",
    "C08_make_aabb_succeeds"
   ],
   "note": "projections within the range of the number type; make_aabb for D=3"
  },
  {
   "property": "C09",
   "status": "partial",
   "theorems": [
    "C09_make_aabb_never_traps_refuted",
    "C09_is_valid_doc_refuted",
    "C09_is_valid_meaning",
    "C08_make_aabb_succeeds"
   ],
   "note": "false: flat point sets trap; thick ones do not"
  },
  {
   "property": "C10",
   "status": "proved",
   "theorems": [
    "C10_is_intersecting_sound",
    "C10_is_intersecting_complete",
    "C10_touching_not_reported",
    "C10_symmetric",
    "C10_intersect_exact",
    "C10_intersect_no_trap"
   ],
   "note": "exact reals; symmetry and absence of traps need comparisons that mirror each other"
  },
  {
   "property": "C11",
   "status": "partial",
   "theorems": [
    "C11_is_intersecting_complete_partial",
    "C11_is_intersecting_sound",
    "C11_intersect_points",
    "C11_touching_ray_refuted",
    "C11_nearly_parallel_refuted"
   ],
   "note": "proved over extended reals for directions whose components are 0 or beyond the tolerance; false for nearly axis-parallel rays and for rays touching the box (intersect disagrees with is_intersecting)"
  },
  {
   "property": "C12",
   "status": "proved",
   "theorems": [
    "C12_closest_params_optimal"
   ],
   "note": "Over exact reals, for any eps >= 0 and comparisons meeting the contract."
  },
  {
   "property": "C13",
   "status": "proved",
   "theorems": [
    "C13_point_line",
    "C13_point_ray",
    "C13_point_ray_exact",
    "C13_point_plane",
    "C13_zero_iff_on"
   ],
   "note": "Ray: exceeds the distance by at most eps/|direction| (exact for eps = 0). Plane: unit normal, which construction guarantees (C38)."
  },
  {
   "property": "C14",
   "status": "partial",
   "theorems": [
    "C14_segment_point_characterisation",
    "C14_segment_point_partial",
    "C14_segment_point_refuted",
    "C14_degenerate_refuted"
   ],
   "note": "False in general: the parameter is divided by the length instead of its square. Exact iff both divisions clamp to the same parameter."
  },
  {
   "property": "C15",
   "status": "partial",
   "theorems": [
    "C15_line_line_partial",
    "C15_line_line_symmetric",
    "C15_line_line_refuted",
    "C15_near_parallel_refuted"
   ],
   "note": "The absolute value is the distance outside the near-parallel band; the result itself can be negative, and inside the band it is wrong by any amount."
  },
  {
   "property": "C16",
   "status": "partial",
   "theorems": [
    "C16_line_ray_partial",
    "C16_line_ray_exact",
    "C16_near_parallel_refuted"
   ],
   "note": "Proved outside the near-parallel band (everywhere for eps = 0); refuted inside it."
  },
  {
   "property": "C17",
   "status": "partial",
   "theorems": [
    "C17_segment_ray_partial",
    "C17_segment_ray_refuted",
    "C17_no_undefined_behaviour",
    "C17_degenerate_refuted"
   ],
   "note": "Parameters are clamped independently, so the result is only an upper bound; the empty optional is dereferenced for NaN parameters."
  },
  {
   "property": "C18",
   "status": "proved",
   "theorems": [
    "C18_sphere_distance"
   ],
   "note": ""
  },
  {
   "property": "C19",
   "status": "proved",
   "theorems": [
    "C19_line2",
    "C19_segment2_sound",
    "C19_segment2_complete",
    "C19_segment2_no_trap"
   ],
   "note": "exact reals; any comparison library satisfying the sandwich contract LinalR"
  },
  {
   "property": "C20",
   "status": "proved",
   "theorems": [
    "C20_line3_sound",
    "C20_line3_complete"
   ],
   "note": "exact reals; nearly parallel is decided with the default tolerance, whatever eps is passed"
  },
  {
   "property": "C21",
   "status": "partial",
   "theorems": [
    "C21_segment3_sound_refuted",
    "C21_segment_ray_sound_refuted",
    "C21_segment3_sound_partial",
    "C21_segment_ray_sound_partial",
    "C21_complete"
   ],
   "note": "false as stated: no skewness test. Proved: the point is the closest point of the carrier lines, correct when the carrier lines meet; complete"
  },
  {
   "property": "C22",
   "status": "partial",
   "theorems": [
    "C22_plane_line",
    "C22_plane_ray",
    "C22_plane_segment",
    "C22_source_on_plane_refuted"
   ],
   "note": "objects starting on the plane are not reported (refuted); the rest is proved"
  },
  {
   "property": "C23",
   "status": "partial",
   "theorems": [
    "C23_sphere_line",
    "C23_sphere_ray",
    "C23_sphere_segment_partial",
    "C23_tangent_segment_missed_refuted",
    "C23_tangent_segment_sound_refuted"
   ],
   "note": "lines and rays proved; tangent segments not of length 1 are mishandled (refuted)"
  },
  {
   "property": "C24",
   "status": "proved",
   "theorems": [
    "C24_sweep_sound",
    "C24_sweep_points",
    "C24_container"
   ],
   "note": "Any scalar type, any set with the std::set interface, any order of the events. Over the reals no assertion fails and the points lie on both segments up to the tolerance."
  },
  {
   "property": "C25",
   "status": "partial",
   "theorems": [
    "C25_detects",
    "C25_two_partial",
    "C25_missed_refuted",
    "C25_duplicate_refuted",
    "C25_right_to_left_refuted",
    "C25_touching_refuted"
   ],
   "note": "False of the code: crossings are missed and reported twice for segments in general position, because the status is not reordered at crossings. Proved: the output is nonempty whenever two segments in general position meet; every pair exactly once if no vertical line meets three segments. Also refuted for segments given from right to left and for a segment that starts on another."
  },
  {
   "property": "C26",
   "status": "proved",
   "theorems": [
    "C26_add_triangles",
    "C26_history",
    "C26_overflow_refuted"
   ],
   "note": "Every scalar type, every point comparison, every triangle sequence with 3n < W. C26_overflow_refuted shows the size restriction is needed (8-bit indices: infinite loop in release, trap in debug)."
  },
  {
   "property": "C27",
   "status": "proved",
   "theorems": [
    "C27_built_mesh_valid",
    "C27_validity_characterised"
   ],
   "note": "Real arithmetic; the check passes exactly if no directed edge occurs three times."
  },
  {
   "property": "C28",
   "status": "partial",
   "theorems": [
    "C28_opposites_refuted",
    "C28_pairing"
   ],
   "note": "The property is false for every closed oriented surface: each halfedge is paired with itself. C28_pairing says what is computed for every triangle sequence."
  },
  {
   "property": "C29",
   "status": "proved",
   "theorems": [
    "C29_calc_halfedges",
    "C29_triangle_indices_round_trip",
    "C29_round_trip_exact",
    "C29_narrow_result_refuted"
   ],
   "note": "All scalar types. The result type must be able to hold the vertex numbers; C29_narrow_result_refuted shows silent truncation otherwise."
  },
  {
   "property": "C30",
   "status": "proved",
   "theorems": [
    "C30_line_indices"
   ],
   "note": "All scalar types, all triangle sequences; result type able to hold the vertex numbers."
  },
  {
   "property": "C31",
   "status": "proved",
   "theorems": [
    "C31_vertex_facets",
    "C31_facet_normal",
    "C31_vertex_normal",
    "C31_all_normals",
    "C31_opposite_facets_refuted"
   ],
   "note": "Incidence for all scalar types; normals over the reals for non-degenerate triangles and exact vector equality. The refuted statement is a stronger one (a unit normal at every vertex): where facet normals cancel there is none, and binary64 gives NaN."
  },
  {
   "property": "C32",
   "status": "proved",
   "theorems": [
    "C32_sphere_indices",
    "C32_sphere_mesh"
   ],
   "note": "Index buffer: in range, all points used, closed and oriented, Euler characteristic 2, for all counts fitting the index type. Mesh: exact reals, operator== exact on the grid points; closed, connected, oriented, valid, on the sphere."
  },
  {
   "property": "C33",
   "status": "proved",
   "theorems": [
    "C33_cone_indices",
    "C33_cylinder_indices",
    "C33_cone_mesh",
    "C33_cylinder_mesh",
    "C33_cuboid_mesh"
   ],
   "note": "Index buffers for every scalar type; meshes for exact reals, assuming linal::rot_align returns a rotation onto the axis (SpecTess.aligned) and operator== is exact on the generated points."
  },
  {
   "property": "C34",
   "status": "proved",
   "theorems": [
    "C34_sphere_outward"
   ],
   "note": "Exact reals; operator== exact on the grid points."
  },
  {
   "property": "C35",
   "status": "partial",
   "theorems": [
    "C35_sphere_safe",
    "C35_cone_safe",
    "C35_cylinder_safe",
    "C35_cuboid_safe",
    "C35_sphere_refuted",
    "C35_cylinder_refuted",
    "C35_circle_loops_refuted"
   ],
   "note": "Safe for every scalar once the counts reach a minimum; refuted as stated: out-of-bounds reads for polar count < 2, azimuth count 0 (sphere) and < 2 (cylinder); endless loop for the largest azimuth count."
  },
  {
   "property": "C36",
   "status": "partial",
   "theorems": [
    "C36_all_matrices",
    "C36_vec",
    "C36_vec2",
    "C36_segment",
    "C36_sphere",
    "C36_cylinder",
    "C36_cone",
    "C36_circle2",
    "C36_circle3_refuted",
    "C36_circle3_partial",
    "C36_sphere_scaling_refuted"
   ],
   "note": "Proved for all rigid motions and vectors, segments, spheres, cylinders, cones and planar circles. False for circles in space, whose normal is left untransformed (C36_circle3_refuted); C36_circle3_partial covers the motions that keep the direction of the normal. Beyond rigid motions: spheres keep their radius under scaling (C36_sphere_scaling_refuted)."
  },
  {
   "property": "C37",
   "status": "partial",
   "theorems": [
    "C37_aabb_characterised",
    "C37_aabb2_characterised",
    "C37_aabb_refuted",
    "C37_aabb_debug_refuted"
   ],
   "note": "False for a quarter turn (C37_aabb_refuted; with assertions enabled it aborts, C37_aabb_debug_refuted). The characterisations say for which matrices it holds: exactly those whose linear part has no negative entry."
  },
  {
   "property": "C38",
   "status": "partial",
   "theorems": [
    "C38_line_normalised",
    "C38_ray_normalised",
    "C38_ray_make_succeeds",
    "C38_plane_normalised",
    "C38_ray_history_partial",
    "C38_set_direction_refuted"
   ],
   "note": "Ray::set_direction stores its argument unchanged."
  },
  {
   "property": "C39",
   "status": "partial",
   "theorems": [
    "C39_total_order",
    "C39_unique_invalid",
    "C39_index_default_invalid",
    "C39_default_invalid_refuted"
   ],
   "note": "Order and unique invalid value proved for all widths; default constructed Handle holds 0, hence is valid (C39_default_invalid_refuted); the mesh index types start out invalid (C39_index_default_invalid)."
  },
  {
   "property": "C40",
   "status": "partial",
   "theorems": [
    "C40_move_refuted"
   ],
   "note": "The property is false: for every mesh all navigation through moved elements is undefined behaviour; only the data of the new object is intact."
  },
  {
   "property": "C41",
   "status": "partial",
   "theorems": [
    "C41_move_preserves",
    "C41_moved_from_refuted",
    "C41_move_assign",
    "C41_reuse_refuted"
   ],
   "note": "new tree proved for move construction and move assignment; the moved-from tree still reports the old size, and counts the lost points when it is used again"
  },
  {
   "property": "C42",
   "status": "partial",
   "theorems": [
    "C42_nearest_of_stored_point",
    "C42_nearest_of_stored_point_b64_refuted",
    "C42_nearest_of_stored_point_ieee_partial"
   ],
   "note": "proved over the reals, refuted for binary64 (underflow of squared differences); in every IEEE format it holds if distinct stored points differ by at least 2^k on some axis, 2^(2k) not below the smallest positive number"
  },
  {
   "property": "C43",
   "status": "proved",
   "theorems": [
    "C43_box_queries",
    "C43_box_from_extent",
    "C43_interval_equality",
    "C43_setters"
   ],
   "note": "exact reals; setters for every scalar type"
  },
  {
   "property": "C44",
   "status": "proved",
   "theorems": [
    "C44_payload_write"
   ],
   "note": ""
  },
  {
   "property": "C45",
   "status": "proved",
   "theorems": [
    "C45_equality_reflexive",
    "C45_equality_sound"
   ],
   "note": ""
  },
  {
   "property": "C46",
   "status": "proved",
   "theorems": [
    "C46_segment_queries",
    "C46_cone_queries",
    "C46_cuboid_corners",
    "C46_cuboid_from_diagonal",
    "C46_circle_setters",
    "C46_segment_setters",
    "C46_cylinder_height",
    "C46_cuboid_at_origin"
   ],
   "note": ""
  },
  {
   "property": "C47",
   "status": "partial",
   "theorems": [
    "C47_contains_own_elements",
    "C47_vertex_equality_characterised",
    "C47_contains_vertex_refuted",
    "C47_halfedge_equality_refuted"
   ],
   "note": "A mesh contains its own elements. False in general: vertex equality is a prefix comparison reading out of range, halfedge equality ignores the mesh."
  },
  {
   "property": "C48",
   "status": "proved",
   "theorems": [
    "C48_translate"
   ],
   "note": "Real arithmetic, exact point comparison."
  },
  {
   "property": "C49",
   "status": "proved",
   "theorems": [
    "C49_components"
   ],
   "note": "Every scalar type and point list."
  },
  {
   "property": "C50",
   "status": "partial",
   "theorems": [
    "C50_contains_refuted",
    "C50_contains_partial"
   ],
   "note": "Termination fails once there are as many points as index values; below that it decides membership."
  },
  {
   "property": "C51",
   "status": "partial",
   "theorems": [
    "C51_sphere_builder",
    "C51_sphere_remembered",
    "C51_cuboid_builder_ignores",
    "C51_cuboid_builder_refuted"
   ],
   "note": "Proved for the sphere builder, which also remembers the sphere it has built; refuted for the cuboid builder, which keeps the cuboid of its first build."
  },
  {
   "property": "C52",
   "status": "partial",
   "theorems": [
    "C52_cone_outward",
    "C52_cylinder_outward",
    "C52_cuboid_outward",
    "C52_cuboid_inward",
    "C52_cuboid_refuted"
   ],
   "note": "Proved for cone, cylinder and right-handed cuboids; refuted for left-handed cuboids (e.g. a diagonal with a negative component product), whose facets all point inwards."
  },
  {
   "property": "C53",
   "status": "partial",
   "theorems": [
    "C53_strict_weak",
    "C53_run",
    "C53_cyclic_refuted"
   ],
   "note": "False of the code: after a crossing the comparison becomes cyclic while the sweep runs. Proved for segments that do not meet at or left of the sweep line, and for whole runs over segments that do not meet."
  },
  {
   "property": "C54",
   "status": "partial",
   "theorems": [
    "C54_vertex",
    "C54_halfedge_characterised",
    "C54_facet_characterised",
    "C54_print_all",
    "C54_points",
    "C54_numbers_refuted"
   ],
   "note": "Vertices and points are printed right; of a halfedge the number shown is the facet's first halfedge, and of a facet the shown halfedge number is the facet number: refuted for every mesh, exact output characterised. Text formatting of numbers is not modelled."
  },
  {
   "property": "C55",
   "status": "proved",
   "theorems": [
    "C55_make_aabb_ieee",
    "C55_box_growth_ieee",
    "C55_intersection_ieee",
    "C55_contract_instances",
    "C55_make_aabb_infinite_refuted"
   ],
   "note": "Every IEEE binary format (Flocq), all finite inputs; the comparisons of linal are assumed to meet SpecIEEE.LinalF (instances: exact and tolerance comparison). The _refuted theorem shows that finiteness is needed: an infinite coordinate inverts the box on the other axes."
  },
  {
   "property": "C56",
   "status": "partial",
   "theorems": [
    "C56_center_ieee_partial",
    "C56_center_ieee_refuted"
   ],
   "note": "True on every axis whose extent max - min does not overflow; on every other axis the centre is +infinity (refuted)."
  },
  {
   "property": "C57",
   "status": "partial",
   "theorems": [
    "C57_ray_box_ieee_complete_partial",
    "C57_ray_box_ieee_sound",
    "C57_missed_refuted"
   ],
   "note": "soundness proved with explicit rounding margin; completeness proved for the box shrunk by the margin; refuted without margin: a ray of doubles exactly through the centre of a box is missed"
  },
  {
   "property": "C58",
   "status": "partial",
   "theorems": [
    "C58_inequality",
    "C58_symmetric_instances",
    "C58_mesh_elements_partial",
    "C58_vertex_refuted"
   ],
   "note": "shapes, boxes, intervals, halfedges and facets: proved; vertices: only when both operators are defined, since == can be true while != reads past the end of a list"
  },
  {
   "property": "C59",
   "status": "partial",
   "theorems": [
    "C59_sort_order_partial",
    "C59_nan_refuted",
    "C59_sliver_refuted"
   ],
   "note": "proved for real and for finite floating point normals in every IEEE format; refuted as soon as a facet is degenerate: its normal is NaN"
  },
  {
   "property": "C60",
   "status": "partial",
   "theorems": [
    "C60_validity_partial",
    "C60_pairing_partial",
    "C60_opposites_refuted",
    "C60_exact_comparison",
    "C60_close_points_refuted"
   ],
   "note": "Proved when different corner points are at least 2^k apart on an axis, with 2^(2k) not below the smallest positive number, and the point comparison is equality on the corner points (it is for an exact comparison: C60_exact_comparison). Missing: closer points; there the statement is false (C60_close_points_refuted: tetrahedron with edges 2^-600 in double precision). Opposites of closed surfaces are wrong as with exact numbers (C60_opposites_refuted)."
  },
  {
   "property": "C61",
   "status": "partial",
   "theorems": [
    "C61_sphere_partial",
    "C61_cone_partial",
    "C61_cylinder_partial",
    "C61_box_partial",
    "C61_cuboid_refuted",
    "C61_box_absorbed_refuted"
   ],
   "note": "Sphere, cone, cylinder: proved whenever the computed vertices are different and well separated. Axis-parallel boxes: proved from the origin and diagonal alone. Conditions on the trigonometric functions that separate the vertices: C68 for spheres, C70 for cones and cylinders. False for turned cuboids with an exact point comparison (C61_cuboid_refuted: twelve vertices and holes) and when the diagonal is absorbed by the origin (C61_box_absorbed_refuted)."
  },
  {
   "property": "C62",
   "status": "proved",
   "theorems": [
    "C62_sphere_volume",
    "C62_cone_volume",
    "C62_cylinder_volume",
    "C62_cuboid_volume"
   ],
   "note": "exact volume of every tessellation measured from any point, with two-sided bounds against the curved shape; a cuboid with left-handed sides has negative volume (see C52_cuboid_refuted); exact reals, and operator== exact on the vertices"
  },
  {
   "property": "C63",
   "status": "proved",
   "theorems": [
    "C63_sphere_convex",
    "C63_cone_convex",
    "C63_cylinder_convex",
    "C63_cuboid_convex",
    "C63_cuboid_left_handed"
   ],
   "note": "for every point of space: inner shape => behind every facet => shape; cuboid exactly; left-handed cuboids are inside out (characterised by C63_cuboid_left_handed); exact reals, and operator== exact on the vertices"
  },
  {
   "property": "C64",
   "status": "partial",
   "theorems": [
    "C64_recursion_bounded",
    "C64_calls_exact",
    "C64_axes",
    "C64_sorted_input",
    "C64_logarithmic_refuted"
   ],
   "note": "linear bounds, exact numbers of calls, the axis of every level and exactly-once destruction proved; logarithmic nesting refuted for every k: points inserted in ascending order give a chain, whose destruction nests k calls (the stack overflows for large sorted input). Counting functions proved to return what the modelled functions return; stack frame sizes and tail call elimination are not modelled."
  },
  {
   "property": "C65",
   "status": "partial",
   "theorems": [
    "C65_line_normalised",
    "C65_ray_normalised",
    "C65_plane_normalised",
    "C65_segment",
    "C65_overflow_refuted",
    "C65_underflow_refuted"
   ],
   "note": "proved for components whose squares neither overflow nor all vanish (predicate moderate); refuted outside: if a square overflows the direction is the zero vector and Ray's assertion still holds, if all squares vanish no component is finite. Assumes linal::normalize divides by the square root of the sum of squares, summed in the order of Linal.dot, without FMA contraction."
  },
  {
   "property": "C66",
   "status": "partial",
   "theorems": [
    "C66_sphere_distance",
    "C66_sphere_contains",
    "C66_plane_distance",
    "C66_overflow_refuted"
   ],
   "note": "proved for points whose squared distance is at most a sixteenth of the overflow threshold (predicate in_reach; no lower bound, coinciding points included); refuted beyond: the distance is infinite and no sphere of finite radius contains the point (double example: the point (2^600,0,0) lies in the sphere of radius 2^700 but is rejected). The plane's normal is the normalised given vector, which must be moderate as in C65."
  },
  {
   "property": "C67",
   "status": "partial",
   "theorems": [
    "C67_point_line",
    "C67_point_ray",
    "C67_overflow_refuted"
   ],
   "note": "proved for moderate directions (as in C65) and points in reach (as in C66), with error (5n+13)u resp. (8n+19)u times the distance to the origin, plus tolerance for rays and 3 resp. 4 times the square root of n times half the smallest number; refuted far away: a finite point on the line has distance NaN."
  },
  {
   "property": "C68",
   "status": "proved",
   "theorems": [
    "C68_sphere",
    "C68_sphere_double"
   ],
   "note": "cosine, sine and pi are parameters with absolute error at most d (about 4d for pi, angles up to 16); correctly rounded functions meet this with d = 2u (lemma rounded_trig). The range is INR np * INR na * (64 d r + u M + t + 2^k) <= r, where t is the tolerance of operator== on points and M bounds the centre's coordinates. Assumes the evaluation order of the model without FMA contraction."
  },
  {
   "property": "C69",
   "status": "partial",
   "theorems": [
    "C69_is_valid",
    "C69_elements",
    "C69_answers",
    "C69_links",
    "C69_traversal",
    "C69_unreadable_refuted",
    "C69_navigation_refuted",
    "C69_facets_refuted"
   ],
   "note": "acceptance characterised exactly for all meshes and memories; permutations and termination of the facet traversal proved for meshes whose halfedges are numbered by position. Refuted: the check has undefined behaviour if a halfedge names a missing element (C69_unreadable_refuted; it answers whenever these exist: C69_answers), accepted meshes can have facets, facet indices and vertex lists naming missing elements (C69_navigation_refuted) and halfedges of other facets around a facet (C69_facets_refuted)."
  },
  {
   "property": "C70",
   "status": "proved",
   "theorems": [
    "C70_cone",
    "C70_cylinder"
   ],
   "note": "cosine, sine, pi and the upper left 3x3 part of the matrix returned by linal::rot_align are parameters with error at most d; matrices equal to the identity up to t may be taken for it. The range is na (2c + t + 2^k) <= r and 2 (2c + t + 2^k) <= l for radius r and axis length l, with c = 150 d (r+l) + 10*2^k + 4 u M + t (1 + 3 (r+l)). For debug builds of the cone its two assertions on the computed length and direction are hypotheses. Assumes the evaluation order of the model without FMA contraction."
  },
  {
   "property": "C71",
   "status": "partial",
   "theorems": [
    "C71_point",
    "C71_shapes",
    "C71_distances",
    "C71_box",
    "C71_box_built",
    "C71_box_absorbed_refuted"
   ],
   "note": "Accuracy of points and shapes, distances, and containment in transformed boxes are proved for every IEEE format; the last clause is refuted: translating a valid box far away aborts a debug build because the corners are rounded to the same point."
  },
  {
   "property": "C72",
   "status": "partial",
   "theorems": [
    "C72_plane_line",
    "C72_plane_ray",
    "C72_plane_segment",
    "C72_forward",
    "C72_overflow_refuted"
   ],
   "note": "Soundness up to rounding, completeness and the forward error are proved for every IEEE format, provided the slope does not overflow; without this proviso it is refuted: a segment as long as the greatest double that crosses the plane in its middle is not reported."
  },
  {
   "property": "C73",
   "status": "partial",
   "theorems": [
    "C73_lines",
    "C73_segments",
    "C73_segments_complete",
    "C73_segments_no_abort",
    "C73_abort_refuted"
   ],
   "note": "Soundness and completeness up to rounding are proved for every IEEE format. The assertion is proved to hold when equality of vectors tolerates an explicit error bound and refuted otherwise: the double precision segments from (0,0) to (1,2) and from (1,0) to (0,1) abort a debug build under exact equality, and scaled by 2^40 also under a tolerance of 2^-30."
  },
  {
   "property": "C74",
   "status": "partial",
   "theorems": [
    "C74_sphere_line",
    "C74_sphere_ray",
    "C74_sphere_segment_partial",
    "C74_range_refuted"
   ],
   "note": "Proved for every IEEE format with explicit bounds of the rounding error of the discriminant, the parameters and the points. Nearly tangent segments are excluded, since the claim already fails for them without rounding (C23). Without the range conditions it is refuted in double precision: a line through the centre of a sphere of radius 2^600 is not reported, one of radius 2^-600 is taken for a tangent."
  },
  {
   "property": "C75",
   "status": "partial",
   "theorems": [
    "C75_parameters",
    "C75_line3_sound",
    "C75_line3_complete",
    "C75_segments",
    "C75_segment_ray",
    "C75_meet_refuted",
    "C75_short_refuted"
   ],
   "note": "Proved for every IEEE format with explicit bounds; soundness of a reported meeting point of two lines needs no condition on the operands. Without a tolerance that covers the roundings the claim that meeting lines are reported is refuted in double precision: lines that meet at (1/3,2/3,0) are not reported under exact comparison, nor lines further out under a tolerance of 2^-30. The test for parallel lines compares a fourth power of lengths with the tolerance: perpendicular segments of length 2^-8 through each other's midpoints pass for parallel."
  },
  {
   "property": "C76",
   "status": "partial",
   "theorems": [
    "C76_line_ray",
    "C76_line_line",
    "C76_segment_point",
    "C76_segment_ray_upper",
    "C76_segment_ray_inside",
    "C76_line_line_refuted"
   ],
   "note": "Proved for every IEEE format with explicit bounds. The distance of two lines is signed: a double precision scene with distance one and a negative result refutes the claim without the absolute value. Segment against ray is covered where the code finds the parameters of the closest points; its parallel branch is refuted with exact numbers already (C17)."
  },
  {
   "property": "C77",
   "status": "partial",
   "theorems": [
    "C77_facet_normal",
    "C77_vertex_normal",
    "C77_all_normals",
    "C77_coplanar_refuted"
   ],
   "note": "Proved for every IEEE format with explicit bounds and any comparison of vectors. With exact comparison in double precision two facets of one plane are counted twice, which moves the vertex normal: refuted with a mesh of three triangles."
  },
  {
   "property": "C78",
   "status": "partial",
   "theorems": [
    "C78_order",
    "C78_sweep",
    "C78_detects",
    "C78_two",
    "C78_sound",
    "C78_missed_refuted"
   ],
   "note": "Proved for every IEEE format with an explicit margin (clear_scene); soundness without any margin. Without the margin the claim is false: two segments in general position with double coordinates that cross, of which nothing is reported for any standard set, is the witness of C78_missed_refuted."
  },
  {
   "property": "C79",
   "status": "proved",
   "theorems": [
    "C79_sphere",
    "C79_sphere_double",
    "C79_cone",
    "C79_cylinder"
   ],
   "note": "Facets and computed facet normals of the float tessellations face outwards, for every IEEE format, under explicit margins on size against precision and number of steps; the closed surface itself is C68 and C70."
  },
  {
   "property": "C80",
   "status": "proved",
   "theorems": [
    "C80_sphere",
    "C80_cone",
    "C80_cylinder",
    "C80_cuboid",
    "C80_sphere_float",
    "C80_sphere_double",
    "C80_cone_float",
    "C80_cylinder_float"
   ],
   "note": "Exact arithmetic: all four solids, any comparison of normals. Floating point: sphere, cone and cylinder, under the margins of C79 and one more on the number of digits against the number of steps."
  },
  {
   "property": "C81",
   "status": "proved",
   "theorems": [
    "C81_sphere",
    "C81_sphere_double",
    "C81_cone",
    "C81_cylinder"
   ],
   "note": "Hypotheses as in C68 and C70. The volume of the mesh is exact real arithmetic on its floating-point vertices; the library has no function that computes volumes."
  },
  {
   "property": "C82",
   "status": "proved",
   "theorems": [
    "C82_weld",
    "C82_cuboid",
    "C82_cuboid_outward",
    "C82_tolerance",
    "C82_cuboid_tolerance"
   ],
   "note": "With an exact operator== the cuboid fails instead (C61_cuboid_refuted); which comparison linal uses is not part of the repository, so it is a hypothesis here."
  },
  {
   "property": "C83",
   "status": "partial",
   "theorems": [
    "C83_points",
    "C83_inside_refuted"
   ],
   "note": "Everything but the last clause is proved with explicit error bounds; the last clause is refuted: a ray of doubles from the origin towards (5,12,0) enters the box [1,2]x[0,20]x[-1,1] at a reported point with x < 1."
  },
  {
   "property": "C84",
   "status": "partial",
   "theorems": [
    "C84_cone",
    "C84_cylinder_height",
    "C84_overflow_refuted"
   ],
   "note": "Everything but the last clause is proved with explicit error bounds; the last clause is refuted: the slant height is infinite as soon as the square of the radius overflows."
  },
  {
   "property": "C85",
   "status": "partial",
   "theorems": [
    "C85_extent",
    "C85_covers",
    "C85_overflow_refuted"
   ],
   "note": "Everything but the last clause is proved with explicit error bounds; the last clause is refuted: for one point with three coordinates of largest magnitude and a direction close to (1/3,2/3,2/3) the projection is in range, but a partial sum overflows and the limits are the largest number and infinity."
  },
  {
   "property": "C86",
   "status": "partial",
   "theorems": [
    "C86_linear",
    "C86_missing",
    "C86_grid_refuted"
   ],
   "note": "The bound and the number of missed crossings are proved for every scalar type; the last clause is refuted for every size: a grid of k horizontal and k slanted segments in general position has k^2 crossings, of which at least k^2 - 6k are not reported, for every event order and every set."
  },
  {
   "property": "C87",
   "status": "proved",
   "theorems": [
    "C87_sphere_area",
    "C87_cone_area",
    "C87_cylinder_area",
    "C87_cuboid_area"
   ],
   "note": "Exact reals; area is the sum over the facets of half the length of the cross product of two sides."
  },
  {
   "property": "C88",
   "status": "proved",
   "theorems": [
    "C88_sphere",
    "C88_sphere_double",
    "C88_cone",
    "C88_cylinder"
   ],
   "note": "Under the hypotheses of C68 and C70 (accuracy of cos, sin, pi and of the rotation, separation of the vertices)."
  },
  {
   "property": "C89",
   "status": "proved",
   "theorems": [
    "C89_sphere",
    "C89_sphere_double",
    "C89_cone",
    "C89_cylinder"
   ],
   "note": "Under the hypotheses of C68 and C70 and that the factor 1-w is at least one half."
  },
  {
   "property": "C90",
   "status": "proved",
   "theorems": [
    "C90_cuboid_area",
    "C90_cuboid_enclosed"
   ],
   "note": "Under the hypotheses of C82 (tolerance of operator==, corners that stay apart)."
  },
  {
   "property": "C91",
   "status": "proved",
   "theorems": [
    "C91_set_normal",
    "C91_cone_assertions",
    "C91_cone_debug",
    "C91_tolerance",
    "C91_exact_refuted"
   ],
   "note": "C91_exact_refuted shows that the tolerance is needed: with exact comparisons the assertions abort in double precision."
  },
  {
   "property": "C92",
   "status": "proved",
   "theorems": [
    "C92_sphere",
    "C92_cylinder",
    "C92_cone",
    "C92_cuboid"
   ],
   "note": "Any comparison of normals: bounds; exact comparison: closed forms. Exact arithmetic."
  },
  {
   "property": "C93",
   "status": "proved",
   "theorems": [
    "C93_sphere",
    "C93_sphere_double"
   ],
   "note": "Trigonometry and comparison enter through accuracy contracts; no condition on the comparison of normals."
  },
  {
   "property": "C94",
   "status": "proved",
   "theorems": [
    "C94_cylinder",
    "C94_cone",
    "C94_cylinder_vertices",
    "C94_cone_vertices"
   ],
   "note": "Trigonometry, alignment matrix and comparison enter through accuracy contracts; no condition on the comparison of normals."
  },
  {
   "property": "C95",
   "status": "partial",
   "theorems": [
    "C95_order",
    "C95_vertical",
    "C95_asymmetric",
    "C95_direction_refuted"
   ],
   "note": "Holds for segments that are not vertical; independence of direction is refuted for vertical ones."
  }
 ]
}
