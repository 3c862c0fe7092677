# Formal model of timow-gh/Geometry — design

Source under study: `/repo/src/include/Geometry` (header-only C++ templates).
Model and proofs: `/verif/rocq/theories` (Rocq/Coq 8.16.1).

## How the code is modelled

* **Templates over the scalar type** become definitions over a record `Scalar` (carrier plus the C++
  operators used: `+ - * / < <= == sqrt abs cos sin atan`, `numeric_limits` constants). The same model
  text is instantiated with
  * `RS M` – exact real arithmetic (`M` is the value of `numeric_limits::max`), for geometric statements;
  * `XS` – exact extended reals with `+oo`, `-oo` and `NaN`, for code that computes with infinities;
  * `IEEE prec emax` – any IEEE-754 binary format (Flocq), for statements that must survive rounding; `B64`/`B32`
    are double/float, used for witnesses. No FMA contraction and no excess precision is assumed.
  Theorems that need no arithmetic law are stated for every `Scalar`.
* **Vectors** `linal::vec<T,D>` are `vec T n` (nested pairs), so dimension-generic theorems hold for all D.
* **linal** (external, not in /repo). Vector operators are modelled by their mathematical definition
  (`Linal.v`). The tolerance comparisons `isZero/isEq/isLess/isGreater/isLessEq/isGreaterEq` are a record
  of arbitrary boolean functions constrained only by a *sandwich contract*
  (for instance `isLess e a b = true -> a < b` and `a < b - e -> isLess e a b = true`), which every
  plausible implementation (raw or tolerance based, strict or not) satisfies; two instances are given.
  `operator==` on vectors is a parameter as well; theorems state what they need from it.
  `linal::rot_align` and `operator==` on matrices are parameters too; the cone and cylinder theorems assume
  `SpecTess.aligned` (the result is the homogeneous matrix of a rotation taking e_z to the axis, and `==`
  with the identity is exact). `ProofTessRot.v` shows that such a function exists for every axis that does
  not point exactly along -e_z. For that one direction the usual formula divides by zero, so whether the
  assumption holds there depends on the library.
* **Undefined behaviour, assertions, exceptions** are distinct outcomes (`res` type: `Ok`, `Throw`,
  `Trap`, `UB`).  `GEO_ASSERT` traps iff the build flag `dbg` is true.
* **Unsigned index types** have `W` values; arithmetic is modulo `W` where the code can wrap.
* **Loops** are structural recursion / folds; unbounded loops carry fuel, and the theorems show that the
  fuel is never exhausted.
* **Containers**: `std::vector` is `list`; `std::sort` is a sorting function; `std::set` is any
  pair of functions on lists meeting `SpecSweep.set_like` (contents, valid iterators; assumed for every
  comparison function) or `SpecSweep.std_set` (sortedness and lookup; assumed only while the comparison is a
  strict weak ordering), `ProofSweep.list_set_std` gives an instance;
  the priority queue delivers any permutation sorted by priority (`SpecSweep.pop_order`, ties unspecified).

Every definition carries a comment with file and lines and the simplifications made.

## Layout

`Scalar.v Linal.v` base; `Model*.v` the code; `Spec*.v` independent specifications; `Proof*.v` lemmas;
`Prop*.v` the property theorems (each closed by `exact`, followed by `Print Assumptions`, with a
non-vacuity example).

## Plan per property

| id | modelled | approach |
|----|----------|----------|
| C01 | KdTree insert/search/size over any Scalar | simulation against an association list, any operation sequence |
| C02 | nearest over reals, all D | branch-and-bound invariant; minimality |
| C03 | nearest over every IEEE binary format, all finite inputs, also under overflow/underflow of distances | the pruning test is safe because rounding is monotone and, for a distance `b` computed as a rounded square root, `b <= rnd(sqrt(rnd(b*b)))` (`ProofRound.v`); `C03_nearest_ieee`, `C03_nearest_ieee_all_inserted` |
| C04 | KdTree with tolerance `==` | refutation witness; positive part for separated points |
| C05 | interval intersection (reals and every IEEE binary format) | case analysis with the sandwich contract |
| C06 | AABB add | fold invariant |
| C07 | AABB default + add | refutation, characterisation of what happens |
| C08 | make_aabb, extreme points | fold invariant |
| C09 | make_aabb in assert build | refutation, positive part for full-dimensional sets |
| C10 | AABB/AABB | componentwise |
| C11 | Ray/AABB | slab invariant over extended reals |
| C12 | closest point parameters | quadratic form argument (Lagrange identity) |
| C13 | point–line/ray/plane distance | projection theorem |
| C14 | segment–point distance | refutation, positive part for unit segments |
| C15 | line–line distance | refutation (sign), absolute value is minimal |
| C16 | line–ray distance | minimality |
| C17 | segment–ray distance | refutation |
| C18 | sphere | triangle inequality |
| C19, C20, C22, C23 | intersections | algebra over reals with the sandwich contract |
| C21 | 3D segment intersection | refutation, completeness part |
| C24 | Bentley–Ottmann soundness | invariant for all event orders |
| C25 | Bentley–Ottmann completeness | refutation witnesses; detection (Shamos–Hoey argument at the leftmost meeting point); exactly once if no vertical line meets three segments |
| C53 | status comparison | rank by height on the sweep line; cyclic witness |
| C26–C31 | halfedge mesh construction and queries | invariants by induction over the triangle sequence |
| C28 | opposite halfedges | universal refutation |
| C32–C35 | tessellation | counting/`mod` arithmetic for all counts, trigonometry for geometry |
| C36, C37 | transforms (vectors, boxes, circles, segments, cones, cylinders, spheres) | linear algebra with an explicit contract for linal's 4x4 matrices: `*` is the matrix product, `to_hvec` appends w = 1 (and zeros), `to_vec` drops w, `set_translation` writes the last column |
| C38 | setters | invariant over call sequences, refutation for `Ray::set_direction` |
| C39 | Handle | direct |
| C40 | moved meshes | memory model with object addresses |
| C41, C42, C44 | KdTree move, binary64 nearest of a stored point, payload writes | direct / witnesses / simulation |
| C43, C45, C46 | equality of boxes and primitives, shape queries | contract / algebra |
| C51 | mesh builder call histories | simulation against a configuration record (meshes and the public members); refutation for the cuboid builder |
| C52 | facets of cone, cylinder, cuboid | orientation as for the sphere; refutation for left-handed cuboids |
| C54 | printing of mesh elements (DebugHelper.hpp) as a list of captions, numbers, coordinates, line ends | characterisation of the output for every element of a well-formed mesh; refutation of the shown halfedge numbers |
| C55, C56 | box operations in every IEEE binary format | comparisons never round, `0*x` and `x+0` are exact for finite `x`; contract `SpecIEEE.LinalF` for the float comparisons; for the centre: rounding is monotone, overflow case separately |
| C57 | ray / box test in every IEEE binary format | standard error model of subtract, invert, multiply (three roundings plus a subnormal term); one plane-parameter lemma, monotonicity of max/min, exact witness for the refutation |
| C58 | operator!= of every class | symmetry of the comparison (exact or by tolerance, reals and every IEEE format); list prefixes for the vertex refutation |
| C59 | the comparator given to std::sort in calc_vertex_normals | values of finite numbers are ordered like reals; NaN witness in every format, mesh witness in binary64 |
| C60 | mesh construction in every IEEE binary format | the k-d tree finds a stored point exactly when different points are 2^k apart and 2^(2k) does not underflow; then the generic development over scalars applies; a tetrahedron with edge 2^-600 as counterexample |
| C61 | tessellations in every IEEE binary format | generic closed-surface construction with the computed vertices as parameter; exact addition laws for the corners of boxes; a turned cube and an absorbed diagonal as counterexamples (exact point comparison) |
| C62 | enclosed volume of the tessellations | corners of each facet read off the mesh (`facet_triangle`); sum of signed tetrahedra, independent of the apex because antisymmetric edge terms cancel on a closed surface; rotations have determinant 1; the sphere sum telescopes |
| C63 | tessellations convex, between inner and outer shape | a facet's half-space as the sign of a determinant (`behind`); the facet planes of the sphere, cone and cylinder in polar coordinates of the sector's bisector; for the outer bound every point lies in some sector, and that facet's plane bounds it; for the cuboid the six barycentric coordinates |
| C64 | recursion of the k-d tree | the helpers once more with counters of calls, nested activations and distance evaluations (`ModelKdCost.v`), proved to return the same results; height bounded by the number of nodes; ascending input builds a chain |
| C65 | normalised directions and lengths in every IEEE binary format | forward error analysis over Flocq: each rounding is (1+eps)x+eta, sums of numbers have no eta; Bernoulli bound for the power of 1+u; square root and division; overflow and underflow characterised |
| C66 | distances to spheres and planes, containment in a sphere, in every IEEE binary format | error bound of a general scalar product (relative to the sum of absolute products); length error without lower bound on the components (absolute part sqrt of the underflow error; square roots are never subnormal); overflow refuted |
| C67 | distances of points to lines and rays in every IEEE binary format | error of the computed rejection (two scalar products, quotient, scaling, difference); the exact distance to a line is Lipschitz in point and direction, the distance to a ray is squeezed between it and the distance to the origin; NaN refutation for far points |
| C68 | sphere tessellation in every IEEE binary format with accurate trigonometric functions | angle, coordinate and vertex errors propagated through the model; distance of exact grid points from Jordan's inequality; every vertex near exactly one grid point, then C61; double precision corollary |
| C69 | is_valid on arbitrary meshes | boolean checks reflected into a small specification of links; finite permutation argument for the facet traversal; witnesses for what acceptance does not imply |
| C70 | cone and cylinder tessellations in every IEEE binary format with accurate trigonometric functions and rotation | errors of circle points, axis length and the product with the placement matrix; exact vertices apart by rigidity and Jordan's inequality; then C61 |
| C71 | transformations in every IEEE binary format; near-rigid matrices; boxes under matrices without negative entries | error of the rounded 4-term dot product; monotonicity of rounded sums and products; a box absorbed far from the origin computed in double precision |
| C72 | intersections of planes with lines, rays and segments in every IEEE binary format, from finite results backwards | error of a finite rounded dot product; a rounded quotient of approximations solves the linear equation up to its backward error; an overflowing slope computed in double precision |
| C73 | intersections of lines and segments of the plane in every IEEE binary format; the debug assertion in `intersect(Segment2, Segment2)` | error of a rounded 2x2 determinant, same quotient lemma as C72; Cramer's rule bounds the gap between both points; crossing segments whose two points differ by one rounding computed in double precision |
| C74 | intersections of spheres with lines, rays and segments in every IEEE binary format | rounding error of the discriminant and of the two roots of the quadratic (relative to the square of the distance from the origin to the far side of the sphere); residual of a computed root gives the distance to the sphere; overflow and underflow computed in double precision |
| C75 | closest points of two lines in space and the intersections of lines, segments and rays computed from them, in every IEEE binary format | rounding error of the determinant and of the two numerators in units of the lengths (Binet-Cauchy), quotient bounds in powers of the sine of the angle; from a finite length backwards to finite points; scenes computed in double precision |
| C76 | distances of a line and a ray, of two lines, of a segment and a point or a ray, in every IEEE binary format | accuracy of the closest points (C75) and continuity of the distance across the branch; the unit normal of two lines from a rounded cross product; from a finite result backwards to points of the two sets; a negative distance computed in double precision |
| C77 | the normals of facets and vertices of a mesh in every IEEE binary format | the rounded cross product of rounded edges against the sine of the corner angle; error of a sum of nearly unit vectors; two coplanar facets in double precision whose normals differ by an ulp |
| C78 | the sweep over line segments in every IEEE binary format | a generic simulation of two sweeps with equal comparisons and corresponding checks; rounding errors of the heights and of the crossing parameters against the margins of the scene; the exact theorems C24 and C25; two crossing segments in double precision of which the second is not inserted |
| C79 | facets and facet normals of the sphere, cone and cylinder built in every IEEE binary format | lower bounds for the tetrahedra over the facets (sines at least 2/n); a determinant changes little when the corners move little; the normals of C77 against this margin; the vertices of C68 and C70 |
| C80 | vertex normals of the four solids in exact arithmetic, of sphere, cone and cylinder in every IEEE binary format | a sum of unit normals that all face one side faces that side, whichever of them are kept as distinct; the sides of the facets from C34, C52 and C79; the rounding of the sum from C77 |
| C81 | volume of spheres, cones and cylinders built in every IEEE binary format | the volume of a closed mesh does not depend on the apex; measured from the centre, each facet contributes a determinant that moves by a bounded amount when its corners do; the ideal volumes from C62 |
| C82 | meshes from triangles with nearly equal corners; cuboids with sides in any directions in every IEEE binary format | the lookup of vertices cannot tell a corner from the first one equal to it; all orders of adding up a corner within one error bound; different corners apart by Cauchy-Schwarz on the determinant; then the closed surface of C61 and the margins of C79 to C81 |
| C83 | entry and exit points of rays and boxes in every IEEE binary format of at least seven bits | one axis: limits are infinite or within the margin of C57 of the side; the largest lower limit is one of them, which gives the side; all parameters between the limits are near all slabs, which bounds the products and so rules out overflow of the point |
| C84 | height, slant height and opening angle of cones, height of cylinders, in every IEEE binary format of at least seven bits | the slant height is the computed length of the vector (radius, height), so C65 applies twice; the arc tangent is concave, which turns relative errors of the quotient into relative errors of the angle; doubling is exact |
| C85 | extent of points along a direction in every IEEE binary format | the limits are two of the computed projections and bound all of them; the error of a dot product (C66) then bounds the distance to the exact extremes |
| C86 | number of points the sweep reports, any scalar type | each step appends at most one point per call of intersect; a weight of 2 per start and 1 per end event bounds the run; grids of k rows and k slanted columns show k^2 - 6k misses |
| C87 | area of the tessellations | each facet of a sphere has a side on a parallel, its area is weighted by the sine of that parallel; the sum of the weights is that of C62; cones and cylinders facet by facet, invariant under rigid motions |
| C88 | area of sphere, cone and cylinder meshes in every IEEE binary format | the length of a cross product moves by at most 10 R c when corners within R move by c; the rest is C87, C68 and C70 |
| C89 | solids enclosed by sphere, cone and cylinder meshes in every IEEE binary format | the volume spanned by a facet and a point moves by at most 36 R c (R + distance of the point) when the corners move by c; moving the point towards the centre wins w times the volume over the facet; the rest is C63, C68 and C70 |
| C90 | area and enclosed solid of cuboid meshes in every IEEE binary format | the lemmas of C88 and C89 for the welded corners of C82 |
| C91 | assertions on unit directions in every IEEE binary format (set_normal, cone builder) | `normalize_err` and `length_err` composed; witness (1,3,3) by computation for the exact comparison |
| C92 | vertex and facet normals of the four solids against those of the shapes, exact arithmetic | facet planes keep a ball clear (sphere); local normals of each triangle computed and carried by the rotation, distinct ones counted, their sum telescopes at the apex |
| C93 | normals of tessellated spheres against those of the sphere in every IEEE binary format | the enclosed ball of C89 keeps the plane of each stored facet clear; the sharpened bound of C77 for the sum of the rounded normals; angle from the scalar product |
| C94 | facet and vertex normals of tessellated cylinders and cones against those of the exact tessellation (C92) in every IEEE binary format | moving the corners of a triangle by at most dl tilts its normal by at most 20 R0^2 dl / D, where D bounds six times the volume over the facet (C79); closed forms of C92; the bounds of C77, per vertex with its own direction |
| C95 | what the status order of the sweep compares: ordinates at the larger left end, independent of direction; refuted for vertical segments | direct computation with `compute_y`; witness: a vertical segment crossed in its middle |
| C47–C50 | element equality, translation, components, point lookup | direct |

## Modelled and not modelled

| code (`/repo/src/include/Geometry`) | model |
|---|---|
| `KdTree.hpp` | `ModelKdTree.v`, counted variants in `ModelKdCost.v` (all members; ownership as a tree value, moves as resets of the source) |
| `AABB.hpp`, `Interval.hpp`, `ExtremePointsInDirection.hpp`, `Intersect/IntersectInterval.hpp`, box/box part of `Intersect/IntersectAABB.hpp` | `ModelBox.v` |
| ray/box part of `Intersect/IntersectAABB.hpp`, `IntersectAABBHelper.hpp` | `ModelRayBox.v` |
| `Line/Ray/Segment/Plane/Sphere.hpp`, `ClosetPointOnLine.hpp`, `Distance/*` | `ModelDistance.v` |
| `Circle/Cone/Cylinder/Cuboid.hpp`, constructors, setters, equality, queries | `ModelShapes.v` |
| `Intersect/IntersectLine/Plane/Segment/Sphere.hpp` | `ModelIntersect.v` |
| `Intersect/BentleyOttmann.hpp` | `ModelSweep.v` |
| `HalfedgeMesh/*` except the files below, `HalfedgeMeshBuilder/MeshTriangleAdder.hpp`, `Triangle.hpp` | `ModelMesh.v`, `ModelPrint.v` (DebugHelper) |
| `HalfedgeMeshBuilder/*` except `MeshTriangleAdder.hpp` | `ModelTess.v` |
| `Transform/*` | `ModelTransform.v` |
| `Handle.hpp`, `MeshIndices.hpp` | `ModelHandle.v` |

Not modelled:

* `HalfedgeMesh/CalcSegmentIndicesHalfedgeIndices.hpp`, `distance(Line,Segment)`, `Transform/TransformCuboid.hpp`:
  they do not compile when instantiated (no behaviour to model);
* the unused code in `CylinderMeshBuilder.hpp`; `MeshTraits.hpp` (type names only), `ConversionHelper.hpp` (an
  explicit conversion, inlined where used), `MeshBuilderConfig.hpp` (two default numbers, which are
  arguments of the model), `Utils/Compiler.hpp`, `Utils/Warnings.hpp`, `Utils/Assert.hpp` (the macro is `geo_assert`; the
  message it prints is not modelled), `Utils/GeometryAssert.hpp` (unused macros);
* text formatting of numbers, memory allocation failure, build system, tests, benchmarks;
* conversions between scalar types in `CuboidMeshBuilder` (both types are taken to be the same);
* the source of the external library `linal`, which is not part of /repo: see the contracts above. A default
  constructed `linal::vec` is zero, and `vec(s)` has either one or all components set (parameter `fill`).

## Trusted base

Coq's kernel; the axioms listed by `Print Assumptions` under each theorem (only those of the standard
library's reals: `ClassicalDedekindReals.sig_forall_dec`, `ClassicalDedekindReals.sig_not_dec`,
`FunctionalExtensionality.functional_extensionality_dep`, and `Classical_Prop.classic` where Flocq uses it);
the faithfulness of the hand translation from C++.

<!-- assumptions -->
### Print Assumptions per theorem

* no axioms (closed under the global context):
  `C01_kdtree_first_wins_map`, `C01_size_no_wrap`, `C01_size_wrap_refuted`, `C24_container`, `C24_sweep_sound`, `C26_add_triangles`, `C26_history`, `C26_overflow_refuted`, `C29_calc_halfedges`, `C29_narrow_result_refuted`, `C29_round_trip_exact`, `C29_triangle_indices_round_trip`, `C30_line_indices`, `C31_vertex_facets`, `C32_sphere_indices`, `C33_cone_indices`, `C33_cylinder_indices`, `C35_circle_loops_refuted`, `C35_cone_safe`, `C35_cuboid_safe`, `C35_cylinder_refuted`, `C35_cylinder_safe`, `C35_sphere_refuted`, `C35_sphere_safe`, `C36_all_matrices`, `C39_default_invalid_refuted`, `C39_index_default_invalid`, `C39_total_order`, `C39_unique_invalid`, `C40_move_refuted`, `C41_move_assign`, `C41_move_preserves`, `C41_moved_from_refuted`, `C41_reuse_refuted`, `C43_setters`, `C44_payload_write`, `C46_segment_setters`, `C47_contains_own_elements`, `C47_contains_vertex_refuted`, `C47_halfedge_equality_refuted`, `C47_vertex_equality_characterised`, `C49_components`, `C50_contains_partial`, `C50_contains_refuted`, `C51_cuboid_builder_ignores`, `C51_sphere_builder`, `C51_sphere_remembered`, `C54_facet_characterised`, `C54_halfedge_characterised`, `C54_numbers_refuted`, `C54_points`, `C54_print_all`, `C54_vertex`, `C58_inequality`, `C58_mesh_elements_partial`, `C58_vertex_refuted`, `C64_axes`, `C64_calls_exact`, `C64_recursion_bounded`, `C64_sorted_input`, `C69_answers`, `C69_elements`, `C69_facets_refuted`, `C69_is_valid`, `C69_links`, `C69_navigation_refuted`, `C69_traversal`, `C69_unreadable_refuted`, `C82_weld`, `C86_linear`, `C86_missing`

* `ClassicalDedekindReals.sig_forall_dec`, `ClassicalDedekindReals.sig_not_dec`, `FunctionalExtensionality.functional_extensionality_dep`:
  `C72_forward`

* `ClassicalDedekindReals.sig_forall_dec`, `ClassicalDedekindReals.sig_not_dec`, `Classical_Prop.classic`, `FunctionalExtensionality.functional_extensionality_dep`:
  `C02_nearest_is_nearest`, `C03_nan_root_refuted`, `C03_nearest_ieee`, `C03_nearest_ieee_all_inserted`, `C04_separated_points_partial`, `C04_tolerant_equality_refuted`, `C05_interval_complete`, `C05_interval_exact`, `C05_interval_ieee`, `C05_interval_intersection`, `C06_box_growth`, `C06_box_growth_exact`, `C07_default_neutral_partial`, `C07_default_neutral_refuted`, `C08_extreme_points`, `C08_make_aabb_succeeds`, `C08_make_aabb_tight`, `C09_is_valid_doc_refuted`, `C09_is_valid_meaning`, `C09_make_aabb_never_traps_refuted`, `C10_intersect_exact`, `C10_intersect_no_trap`, `C10_is_intersecting_complete`, `C10_is_intersecting_sound`, `C10_symmetric`, `C10_touching_not_reported`, `C11_intersect_points`, `C11_is_intersecting_complete_partial`, `C11_is_intersecting_sound`, `C11_nearly_parallel_refuted`, `C11_touching_ray_refuted`, `C12_closest_params_optimal`, `C13_point_line`, `C13_point_plane`, `C13_point_ray`, `C13_point_ray_exact`, `C13_zero_iff_on`, `C14_degenerate_refuted`, `C14_segment_point_characterisation`, `C14_segment_point_partial`, `C14_segment_point_refuted`, `C15_line_line_partial`, `C15_line_line_refuted`, `C15_line_line_symmetric`, `C15_near_parallel_refuted`, `C16_line_ray_exact`, `C16_line_ray_partial`, `C16_near_parallel_refuted`, `C17_degenerate_refuted`, `C17_no_undefined_behaviour`, `C17_segment_ray_partial`, `C17_segment_ray_refuted`, `C18_sphere_distance`, `C19_line2`, `C19_segment2_complete`, `C19_segment2_no_trap`, `C19_segment2_sound`, `C20_line3_complete`, `C20_line3_sound`, `C21_complete`, `C21_segment3_sound_partial`, `C21_segment3_sound_refuted`, `C21_segment_ray_sound_partial`, `C21_segment_ray_sound_refuted`, `C22_plane_line`, `C22_plane_ray`, `C22_plane_segment`, `C22_source_on_plane_refuted`, `C23_sphere_line`, `C23_sphere_ray`, `C23_sphere_segment_partial`, `C23_tangent_segment_missed_refuted`, `C23_tangent_segment_sound_refuted`, `C24_sweep_points`, `C25_detects`, `C25_duplicate_refuted`, `C25_missed_refuted`, `C25_right_to_left_refuted`, `C25_touching_refuted`, `C25_two_partial`, `C27_built_mesh_valid`, `C27_validity_characterised`, `C28_opposites_refuted`, `C28_pairing`, `C31_all_normals`, `C31_facet_normal`, `C31_opposite_facets_refuted`, `C31_vertex_normal`, `C32_sphere_mesh`, `C33_cone_mesh`, `C33_cuboid_mesh`, `C33_cylinder_mesh`, `C34_sphere_outward`, `C36_circle2`, `C36_circle3_partial`, `C36_circle3_refuted`, `C36_cone`, `C36_cylinder`, `C36_segment`, `C36_sphere`, `C36_sphere_scaling_refuted`, `C36_vec`, `C36_vec2`, `C37_aabb2_characterised`, `C37_aabb_characterised`, `C37_aabb_debug_refuted`, `C37_aabb_refuted`, `C38_line_normalised`, `C38_plane_normalised`, `C38_ray_history_partial`, `C38_ray_make_succeeds`, `C38_ray_normalised`, `C38_set_direction_refuted`, `C42_nearest_of_stored_point`, `C42_nearest_of_stored_point_b64_refuted`, `C42_nearest_of_stored_point_ieee_partial`, `C43_box_from_extent`, `C43_box_queries`, `C43_interval_equality`, `C45_equality_reflexive`, `C45_equality_sound`, `C46_circle_setters`, `C46_cone_queries`, `C46_cuboid_at_origin`, `C46_cuboid_corners`, `C46_cuboid_from_diagonal`, `C46_cylinder_height`, `C46_segment_queries`, `C48_translate`, `C51_cuboid_builder_refuted`, `C52_cone_outward`, `C52_cuboid_inward`, `C52_cuboid_outward`, `C52_cuboid_refuted`, `C52_cylinder_outward`, `C53_cyclic_refuted`, `C53_run`, `C53_strict_weak`, `C55_box_growth_ieee`, `C55_contract_instances`, `C55_intersection_ieee`, `C55_make_aabb_ieee`, `C55_make_aabb_infinite_refuted`, `C56_center_ieee_partial`, `C56_center_ieee_refuted`, `C57_missed_refuted`, `C57_ray_box_ieee_complete_partial`, `C57_ray_box_ieee_sound`, `C58_symmetric_instances`, `C59_nan_refuted`, `C59_sliver_refuted`, `C59_sort_order_partial`, `C60_close_points_refuted`, `C60_exact_comparison`, `C60_opposites_refuted`, `C60_pairing_partial`, `C60_validity_partial`, `C61_box_absorbed_refuted`, `C61_box_partial`, `C61_cone_partial`, `C61_cuboid_refuted`, `C61_cylinder_partial`, `C61_sphere_partial`, `C62_cone_volume`, `C62_cuboid_volume`, `C62_cylinder_volume`, `C62_sphere_volume`, `C63_cone_convex`, `C63_cuboid_convex`, `C63_cuboid_left_handed`, `C63_cylinder_convex`, `C63_sphere_convex`, `C64_logarithmic_refuted`, `C65_line_normalised`, `C65_overflow_refuted`, `C65_plane_normalised`, `C65_ray_normalised`, `C65_segment`, `C65_underflow_refuted`, `C66_overflow_refuted`, `C66_plane_distance`, `C66_sphere_contains`, `C66_sphere_distance`, `C67_overflow_refuted`, `C67_point_line`, `C67_point_ray`, `C68_sphere`, `C68_sphere_double`, `C70_cone`, `C70_cylinder`, `C71_box`, `C71_box_absorbed_refuted`, `C71_box_built`, `C71_distances`, `C71_point`, `C71_shapes`, `C72_overflow_refuted`, `C72_plane_line`, `C72_plane_ray`, `C72_plane_segment`, `C73_abort_refuted`, `C73_lines`, `C73_segments`, `C73_segments_complete`, `C73_segments_no_abort`, `C74_range_refuted`, `C74_sphere_line`, `C74_sphere_ray`, `C74_sphere_segment_partial`, `C75_line3_complete`, `C75_line3_sound`, `C75_meet_refuted`, `C75_parameters`, `C75_segment_ray`, `C75_segments`, `C75_short_refuted`, `C76_line_line`, `C76_line_line_refuted`, `C76_line_ray`, `C76_segment_point`, `C76_segment_ray_inside`, `C76_segment_ray_upper`, `C77_all_normals`, `C77_coplanar_refuted`, `C77_facet_normal`, `C77_vertex_normal`, `C78_detects`, `C78_missed_refuted`, `C78_order`, `C78_sound`, `C78_sweep`, `C78_two`, `C79_cone`, `C79_cylinder`, `C79_sphere`, `C79_sphere_double`, `C80_cone`, `C80_cone_float`, `C80_cuboid`, `C80_cylinder`, `C80_cylinder_float`, `C80_sphere`, `C80_sphere_double`, `C80_sphere_float`, `C81_cone`, `C81_cylinder`, `C81_sphere`, `C81_sphere_double`, `C82_cuboid`, `C82_cuboid_outward`, `C82_cuboid_tolerance`, `C82_tolerance`, `C83_inside_refuted`, `C83_points`, `C84_cone`, `C84_cylinder_height`, `C84_overflow_refuted`, `C85_covers`, `C85_extent`, `C85_overflow_refuted`, `C86_grid_refuted`, `C87_cone_area`, `C87_cuboid_area`, `C87_cylinder_area`, `C87_sphere_area`, `C88_cone`, `C88_cylinder`, `C88_sphere`, `C88_sphere_double`, `C89_cone`, `C89_cylinder`, `C89_sphere`, `C89_sphere_double`, `C90_cuboid_area`, `C90_cuboid_enclosed`, `C91_cone_assertions`, `C91_cone_debug`, `C91_exact_refuted`, `C91_set_normal`, `C91_tolerance`, `C92_cone`, `C92_cuboid`, `C92_cylinder`, `C92_sphere`, `C93_sphere`, `C93_sphere_double`, `C94_cone`, `C94_cone_vertices`, `C94_cylinder`, `C94_cylinder_vertices`, `C95_asymmetric`, `C95_direction_refuted`, `C95_order`, `C95_vertical`
