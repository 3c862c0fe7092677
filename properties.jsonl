{"id": "C01", "title": "KdTree behaves as a set/first-wins map", "statement": "For any sequence of insert / search / size / empty calls on a KdTree, the observable results are those of a mathematical set of points: insert returns true exactly when the point was not inserted before, search returns true exactly for points inserted before, size is the number of distinct inserted points and empty is size == 0; with payloads the first payload inserted for a point is kept.", "quantifier": "for every dimension D >= 1, every point type, every finite operation sequence, every payload", "why_tests_cant": "The tree shape depends on the whole insertion history; a test exercises a handful of histories out of infinitely many.", "anchors": ["src/include/Geometry/KdTree.hpp: KdTree::insert, search, size, empty, insertHelper, searchHelper"]}
{"id": "C02", "title": "KdTree nearest returns a true nearest neighbour", "statement": "nearest(q) on a non-empty KdTree returns a stored point (with the payload stored for it) whose Euclidean distance to q is minimal among all stored points; on an empty tree it throws std::runtime_error.", "quantifier": "for every dimension, every insertion history and every query point", "why_tests_cant": "Branch-and-bound pruning is only wrong for particular geometric configurations of tree and query; sampling cannot exclude them.", "anchors": ["src/include/Geometry/KdTree.hpp: KdTree::nearest, nearestHelper, distance"]}
{"id": "C03", "title": "KdTree nearest is exact under IEEE-754 rounding", "statement": "With finite float or double coordinates (distances may underflow or overflow to infinity), nearest(q) returns a stored point whose floating-point computed distance is minimal among the floating-point computed distances of all stored points, i.e. rounding never makes the pruning test skip a better candidate.", "quantifier": "for every IEEE binary format with precision > 2, all finite points, histories and queries", "why_tests_cant": "Requires a monotonicity argument over all 2^64-bit patterns; no test suite can enumerate rounding cases.", "anchors": ["src/include/Geometry/KdTree.hpp: KdTree::nearestHelper, distance"]}
{"id": "C04", "title": "KdTree tolerates approximate point equality", "statement": "After insert(p) returned, search(q) is true for every q that compares equal (operator==) to a stored point, and no two stored points compare equal.", "quantifier": "for every history, for every reflexive operator== the vector library may provide (exact or tolerance based)", "why_tests_cant": "Failure needs two nearly equal points separated by a splitting plane, a measure-zero configuration for tests.", "anchors": ["src/include/Geometry/KdTree.hpp: insertHelper, searchHelper"]}
{"id": "C05", "title": "Interval intersection is geometrically correct", "statement": "intersect([a,b],[c,d]) returns 0 only if the intervals are disjoint, 2 only if they overlap and then the result interval is [max(a,c), min(b,d)] up to the tolerance (exactly, if the tolerance is 0), and 1 only if the shared part is a single point up to the tolerance, which is stored as start; the classification is complete away from the tolerance band.", "quantifier": "for all reals a<=b, c<=d and every tolerance eps >= 0", "why_tests_cant": "Boundary/tolerance combinations form a continuum of inputs.", "anchors": ["src/include/Geometry/Intersect/IntersectInterval.hpp: intersect", "src/include/Geometry/Interval.hpp"]}
{"id": "C06", "title": "AABB growth covers everything that was added", "statement": "Starting from any valid box, after any sequence of add(point)/add(box) the box contains the initial box and every added point/box up to eps per axis, and is no larger than the tight bounding box of these.", "quantifier": "for every dimension, every sequence of additions, every eps >= 0", "why_tests_cant": "The containment invariant ranges over unbounded histories.", "anchors": ["src/include/Geometry/AABB.hpp: AABB::add"]}
{"id": "C07", "title": "Default-constructed AABB is a neutral element for add", "statement": "A default-constructed (empty) AABB to which a set of points is added is the tight bounding box of these points.", "quantifier": "for every dimension and every point set", "why_tests_cant": "Tests only use point sets around the origin where the initial [1,-1] box is invisible.", "anchors": ["src/include/Geometry/AABB.hpp: AABB::AABB, add"]}
{"id": "C08", "title": "make_aabb is the tight bounding box", "statement": "make_aabb(points) yields a box that contains every point, and each of its faces touches some point; extreme_points_along_direction returns the minimum and maximum projection over all points.", "quantifier": "for every non-empty point list and every direction", "why_tests_cant": "Universally quantified over all lists and directions.", "anchors": ["src/include/Geometry/AABB.hpp: make_aabb", "src/include/Geometry/ExtremePointsInDirection.hpp: extreme_points_along_direction"]}
{"id": "C09", "title": "make_aabb never traps", "statement": "make_aabb(points) returns a box (no assertion failure) for every non-empty set of points, also flat ones; the documented validity condition of an AABB is min <= max.", "quantifier": "for every non-empty list of points, in assertion-enabled builds", "why_tests_cant": "Needs all degenerate point sets.", "anchors": ["src/include/Geometry/AABB.hpp: make_aabb, AABB::AABB(min,max), is_valid"]}
{"id": "C10", "title": "AABB/AABB intersection test and intersection box agree with geometry", "statement": "is_intersecting(A,B) is true only if the boxes share an interior point, is true whenever they overlap by more than eps on each axis, is symmetric; intersect(A,B) is exactly the set intersection of the boxes when they intersect and the default (empty) box otherwise.", "quantifier": "for every dimension, all boxes, every eps >= 0", "why_tests_cant": "Continuum of box pairs.", "anchors": ["src/include/Geometry/Intersect/IntersectAABB.hpp: is_intersecting(AABB,AABB), intersect(AABB,AABB)"]}
{"id": "C11", "title": "Ray/AABB intersection is sound and complete", "statement": "For a ray with arbitrary direction, is_intersecting(ray,box) / intersect(ray,box) report a hit exactly when the ray meets the box (up to eps); the entering/exit points lie on the ray and on the boundary of the box, entering before exit.", "quantifier": "for every dimension, all boxes, all rays including axis-parallel ones, every eps >= 0", "why_tests_cant": "Slab method corner cases (parallel axes, origin inside, behind) are a continuum.", "anchors": ["src/include/Geometry/Intersect/IntersectAABB.hpp: is_intersecting(Ray,AABB), intersect(Ray,AABB)", "src/include/Geometry/Intersect/IntersectAABBHelper.hpp"]}
{"id": "C12", "title": "Closest-point parameters between lines are optimal", "statement": "If closest_point_on_line_parameters returns parameters (s,t) they minimise the distance between the points of the two lines over all parameter pairs; it returns nothing only for (nearly) parallel directions.", "quantifier": "for all dimensions, all lines, all eps >= 0", "why_tests_cant": "Optimality is a universally quantified statement over all parameter pairs.", "anchors": ["src/include/Geometry/ClosetPointOnLine.hpp"]}
{"id": "C13", "title": "Point distances to line, ray and plane are minimal distances", "statement": "distance(line,p), distance(ray,p) and distance(plane,p) equal the minimum of |x-p| over all points x of the object (attained), hence are non-negative and zero exactly on the object.", "quantifier": "for all dimensions, objects and points", "why_tests_cant": "Minimum over infinitely many points.", "anchors": ["src/include/Geometry/Distance/DistanceLine.hpp", "src/include/Geometry/Distance/DistanceRay.hpp", "src/include/Geometry/Distance/DistancePlane.hpp"]}
{"id": "C14", "title": "Segment-point distance is the minimal distance", "statement": "distance(segment,p) equals the minimum of |x-p| over the points x of the segment.", "quantifier": "for all non-degenerate segments and all points", "why_tests_cant": "The tests only use inputs for which the wrong normalisation is invisible.", "anchors": ["src/include/Geometry/Distance/DistanceSegment.hpp: distance(Segment,vec)"]}
{"id": "C15", "title": "Line-line distance is a distance", "statement": "distance(line,line) is the minimum distance of points on the two lines: non-negative, symmetric.", "quantifier": "for all pairs of lines in 3D", "why_tests_cant": "Sign depends on the orientation of the inputs, tests only use one orientation.", "anchors": ["src/include/Geometry/Distance/DistanceLine.hpp: distance(Line,Line)"]}
{"id": "C16", "title": "Line-ray distance is the minimal distance", "statement": "distance(line,ray) equals the minimum of |x-y| over x on the line and y on the ray.", "quantifier": "for all lines and rays in 3D, up to eps for nearly parallel ones", "why_tests_cant": "Minimum over two continua.", "anchors": ["src/include/Geometry/Distance/DistanceRay.hpp: distance(Line,Ray)", "src/include/Geometry/Distance/DistanceLine.hpp: distance(Line,Ray)"]}
{"id": "C17", "title": "Segment-ray distance is the minimal distance", "statement": "distance(segment,ray) equals the minimum of |x-y| over x on the segment and y on the ray.", "quantifier": "for all segments and rays in 3D", "why_tests_cant": "Independent clamping of the two parameters is only wrong for some configurations.", "anchors": ["src/include/Geometry/Distance/DistanceSegment.hpp: distance(Segment,Ray)"]}
{"id": "C18", "title": "Sphere distance and containment", "statement": "signed distance to a sphere is |p-c|-r, negative exactly inside; the (unsigned) distance is the minimal distance to the sphere surface; contains(p) holds exactly for |p-c| <= r (+eps).", "quantifier": "for all spheres with r >= 0 and all points", "why_tests_cant": "Minimum over a continuum of surface points.", "anchors": ["src/include/Geometry/Distance/DistanceSphere.hpp", "src/include/Geometry/Sphere.hpp: Sphere::contains"]}
{"id": "C19", "title": "2D line-line and segment-segment intersection is sound and complete", "statement": "A returned point lies on both objects (segments: parameters within [-eps,1+eps]); if the objects are not nearly parallel and share a point, that point is returned.", "quantifier": "for all pairs of 2D lines/segments, all eps >= 0", "why_tests_cant": "Continuum of inputs.", "anchors": ["src/include/Geometry/Intersect/IntersectLine.hpp: intersect(Line2,Line2)", "src/include/Geometry/Intersect/IntersectSegment.hpp: intersect(Segment2,Segment2)"]}
{"id": "C20", "title": "3D line-line intersection is sound and complete", "statement": "A returned point lies on the first line and within eps of the second; intersecting non-parallel lines yield their common point; skew lines farther apart than eps yield nothing.", "quantifier": "for all pairs of 3D lines, all eps >= 0", "why_tests_cant": "Continuum of inputs.", "anchors": ["src/include/Geometry/Intersect/IntersectLine.hpp: intersect(Line3,Line3)"]}
{"id": "C21", "title": "3D segment-segment / segment-ray intersection is sound", "statement": "A point returned by intersect(Segment3,Segment3) or intersect(Segment3,Ray3) lies (up to eps) on both objects.", "quantifier": "for all pairs of 3D segments / segment-ray pairs", "why_tests_cant": "Tests only use coplanar configurations.", "anchors": ["src/include/Geometry/Intersect/IntersectSegment.hpp: intersect(Segment3,Segment3), intersect(Segment3,Ray3)"]}
{"id": "C22", "title": "Plane intersection with line, ray, segment", "statement": "A returned point lies on the plane and on the line/ray/segment; if the object is not nearly parallel to the plane and crosses it, the crossing point is returned.", "quantifier": "for all planes and lines/rays/segments, all eps >= 0", "why_tests_cant": "Continuum of inputs; the source-touching segment is a boundary case.", "anchors": ["src/include/Geometry/Intersect/IntersectPlane.hpp"]}
{"id": "C23", "title": "Sphere intersection with line, ray, segment", "statement": "All returned points lie on the sphere (tangent case: within tolerance) and on the line/ray/segment, and away from the tangent tolerance band every common point is returned.", "quantifier": "for all spheres and lines/rays/segments, all eps >= 0", "why_tests_cant": "Tangency is measure zero in the input space.", "anchors": ["src/include/Geometry/Intersect/IntersectSphere.hpp"]}
{"id": "C24", "title": "Bentley-Ottmann reports only true intersections", "statement": "Every point returned by the sweep is a point returned by the pairwise segment intersection of two different input segments, whatever order the event queue gives to simultaneous events.", "quantifier": "for every list of segments and every tie-breaking of the event queue", "why_tests_cant": "Unspecified tie-breaking makes the schedule nondeterministic.", "anchors": ["src/include/Geometry/Intersect/BentleyOttmann.hpp"]}
{"id": "C25", "title": "Bentley-Ottmann reports all intersections exactly once", "statement": "Each pair of properly crossing input segments contributes exactly one reported point.", "quantifier": "for every list of segments in general position", "why_tests_cant": "Completeness of a sweep is a statement over all segment configurations.", "anchors": ["src/include/Geometry/Intersect/BentleyOttmann.hpp"]}
{"id": "C26", "title": "Adding triangles keeps the halfedge mesh well formed", "statement": "After adding any sequence of triangles: every facet has three halfedges linked cyclically by next/previous, each halfedge's vertex lists exactly the halfedges starting at it in increasing order, indices are in range, no two mesh points compare equal, and facet k's corner points are the points of the k-th added triangle (lossless round trip).", "quantifier": "for every sequence of triangles (also degenerate), as long as the index type does not overflow", "why_tests_cant": "Invariant over unbounded construction histories.", "anchors": ["src/include/Geometry/HalfedgeMeshBuilder/MeshTriangleAdder.hpp: MeshTriangleAdder::operator()", "src/include/Geometry/HalfedgeMesh/HalfedgeMesh.hpp", "src/include/Geometry/HalfedgeMesh/Halfedge.hpp", "src/include/Geometry/HalfedgeMesh/Facet.hpp", "src/include/Geometry/HalfedgeMesh/Vertex.hpp"]}
{"id": "C27", "title": "A mesh built by the library passes its own validity check", "statement": "After set_opposite_halfedges on triangles with pairwise distinct directed edges, HalfedgeMesh::is_valid returns true.", "quantifier": "for every triangle sequence with unique directed edges", "why_tests_cant": "Quantifies over all meshes.", "anchors": ["src/include/Geometry/HalfedgeMesh/HalfedgeMesh.hpp: is_valid", "src/include/Geometry/HalfedgeMesh/Halfedge.hpp: is_valid", "src/include/Geometry/HalfedgeMeshBuilder/MeshTriangleAdder.hpp: set_opposite_halfedges"]}
{"id": "C28", "title": "Opposite halfedges run in the opposite direction", "statement": "In a mesh built from a closed consistently oriented surface, the opposite of a halfedge from u to v is the halfedge from v to u (and belongs to the neighbouring facet).", "quantifier": "for every closed oriented triangle surface", "why_tests_cant": "The only test on opposites encodes the current behaviour.", "anchors": ["src/include/Geometry/HalfedgeMeshBuilder/MeshTriangleAdder.hpp: set_opposite_halfedges"]}
{"id": "C29", "title": "Facet traversal and index extraction are lossless", "statement": "On a mesh built by adding triangles, calc_halfedges of a facet terminates with its three halfedges and calc_triangle_indices returns the corner vertex indices facet by facet; looking the indices up in the mesh points reproduces the added triangles.", "quantifier": "for every triangle sequence", "why_tests_cant": "Termination and round trip over all meshes.", "anchors": ["src/include/Geometry/HalfedgeMesh/CalcFaceHalfedges.hpp", "src/include/Geometry/HalfedgeMesh/CalcTriangleIndices.hpp"]}
{"id": "C30", "title": "Line index extraction yields every edge exactly once", "statement": "calc_line_indices returns exactly the undirected edges of the mesh, each once, with ordered endpoints, sorted.", "quantifier": "for every triangle sequence", "why_tests_cant": "Quantifies over all meshes.", "anchors": ["src/include/Geometry/HalfedgeMesh/CalcSegmentIndicesHalfedgeIndices.hpp"]}
{"id": "C31", "title": "Vertex facets and normals", "statement": "calc_vertex_facets returns exactly the facets incident to each vertex; calc_facet_normal is a unit vector orthogonal to the facet with the orientation of its corner order; calc_vertex_normals is the normalised sum of the distinct incident facet normals, independent of facet order.", "quantifier": "for every mesh built from non-degenerate triangles", "why_tests_cant": "Quantifies over all meshes and real coordinates.", "anchors": ["src/include/Geometry/HalfedgeMesh/CalcVertexFacets.hpp", "src/include/Geometry/HalfedgeMesh/CalcFacetNormal.hpp", "src/include/Geometry/HalfedgeMesh/CalcVertexNormals.hpp"]}
{"id": "C32", "title": "Sphere tessellation is a closed oriented surface", "statement": "For polar count >= 2 and azimuth count >= 3, the triangle indices generated for a sphere are in range, every directed edge occurs exactly once and together with its reverse, the vertex/triangle counts are (p-1)a+2 and 2a(p-1), Euler characteristic 2; all points lie on the sphere.", "quantifier": "for all discretisation counts and all spheres", "why_tests_cant": "Unbounded family of meshes; tests check only a few counts.", "anchors": ["src/include/Geometry/HalfedgeMeshBuilder/SphereMeshBuilder.hpp: calc_sphere_points, calc_sphere_triangle_indices"]}
{"id": "C33", "title": "Cylinder, cone and cuboid tessellations are closed oriented surfaces", "statement": "For azimuth count >= 3 the generated cylinder/cone triangle indices (and the fixed cuboid indices) are in range and every directed edge occurs exactly once together with its reverse.", "quantifier": "for all azimuth counts", "why_tests_cant": "Unbounded family of meshes.", "anchors": ["src/include/Geometry/HalfedgeMeshBuilder/CylinderMeshBuilder.hpp", "src/include/Geometry/HalfedgeMeshBuilder/ConeMeshBuilder.hpp", "src/include/Geometry/HalfedgeMeshBuilder/CuboidMeshBuilder.hpp", "src/include/Geometry/HalfedgeMeshBuilder/DiscretizeCircle.hpp"]}
{"id": "C34", "title": "Tessellated sphere facets point outwards", "statement": "In the halfedge mesh built for a sphere every facet, taken in its corner order, has its normal pointing away from the centre.", "quantifier": "for all discretisation counts (polar >= 2, azimuth >= 3) and all radii > 0", "why_tests_cant": "Unbounded family of meshes with real coordinates.", "anchors": ["src/include/Geometry/HalfedgeMeshBuilder/SphereMeshBuilder.hpp", "src/include/Geometry/HalfedgeMeshBuilder/MeshBuilderBase.hpp"]}
{"id": "C35", "title": "Builders are memory safe for every discretisation count", "statement": "Building a mesh never reads outside the generated point list, whatever polar/azimuth counts the user sets.", "quantifier": "for all counts including 0, 1, 2", "why_tests_cant": "Small counts trigger unsigned wrap-around; tests use reasonable values.", "anchors": ["src/include/Geometry/HalfedgeMeshBuilder/SphereMeshBuilder.hpp: set_polar_count, set_azimuth_count, calc_sphere_triangle_indices", "src/include/Geometry/HalfedgeMeshBuilder/ConeMeshBuilder.hpp", "src/include/Geometry/HalfedgeMeshBuilder/CylinderMeshBuilder.hpp"]}
{"id": "C36", "title": "Rigid transformations commute with geometry", "statement": "transformation(shape, M) of vectors, segments, spheres, circles, cones and cylinders (the transformations the library has) by a rigid motion M is the image of the point set of the shape; point-wise membership is preserved.", "quantifier": "for all rigid motions and all shapes", "why_tests_cant": "Group of motions and point sets are infinite.", "anchors": ["src/include/Geometry/Transform/TransformAABB.hpp", "src/include/Geometry/Transform/TransformCircle.hpp", "src/include/Geometry/Transform/TransformCone.hpp", "src/include/Geometry/Transform/TransformCuboid.hpp", "src/include/Geometry/Transform/TransformCylinder.hpp", "src/include/Geometry/Transform/TransformSegment.hpp", "src/include/Geometry/Transform/TransformSphere.hpp", "src/include/Geometry/Transform/TransformVec.hpp"]}
{"id": "C37", "title": "Transformed AABB bounds the transformed box", "statement": "transform(AABB, M) contains the image of every point of the box.", "quantifier": "for all boxes and all affine M", "why_tests_cant": "Fails only for transformations with negative or off-diagonal entries.", "anchors": ["src/include/Geometry/Transform/TransformAABB.hpp"]}
{"id": "C38", "title": "Directions stay normalised", "statement": "Line/Ray directions and Plane normals have unit length after construction from a non-zero vector and after every sequence of setter calls.", "quantifier": "for every sequence of constructor/setter calls", "why_tests_cant": "Invariant over histories.", "anchors": ["src/include/Geometry/Line.hpp", "src/include/Geometry/Ray.hpp", "src/include/Geometry/Plane.hpp"]}
{"id": "C39", "title": "Handles are a total order with a unique invalid value", "statement": "The comparison operators of Handle are mutually consistent and form a strict total order; is_valid is false exactly for the maximum value; a default constructed handle is invalid.", "quantifier": "for all handle values and index types", "why_tests_cant": "Exhaustive over 2^64 values.", "anchors": ["src/include/Geometry/Handle.hpp", "src/include/Geometry/HalfedgeMesh/MeshIndices.hpp"]}
{"id": "C40", "title": "Moving a mesh keeps its elements usable", "statement": "After move-constructing a HalfedgeMesh, navigation (next, previous, opposite, vertex) through the elements of the new mesh reads the new mesh.", "quantifier": "for every mesh", "why_tests_cant": "Dangling back pointers are undefined behaviour that a passing test cannot exclude.", "anchors": ["src/include/Geometry/HalfedgeMesh/HalfedgeMesh.hpp: move constructor, m_mesh back pointers"]}
{"id": "C41", "title": "Moving a KdTree keeps its observations", "statement": "A move-constructed KdTree answers every query as the original did; the moved-from tree is an empty tree.", "quantifier": "for every history of operations", "why_tests_cant": "Quantifies over all histories; the moved-from state is rarely looked at by tests.", "anchors": ["src/include/Geometry/KdTree.hpp: move constructor, move assignment, nearest, size"]}
{"id": "C42", "title": "nearest of a stored point is that point", "statement": "If p was inserted, nearest(p) returns p with its payload.", "quantifier": "for every history and every stored point, over the reals and in IEEE binary64", "why_tests_cant": "In floating point distinct points can have computed distance zero; only specially chosen inputs show it.", "anchors": ["src/include/Geometry/KdTree.hpp: nearest"]}
{"id": "C43", "title": "Box and interval queries mean what they say", "statement": "operator== holds for identical boxes/intervals and only for ones that agree up to eps per coordinate; is_empty means some lower coordinate exceeds the upper one; center is the midpoint; the extent constructor yields [min, min+extent] and traps for a negative extent.", "quantifier": "for every dimension, all boxes, every eps >= 0", "why_tests_cant": "Universal over real coordinates and tolerances.", "anchors": ["src/include/Geometry/AABB.hpp", "src/include/Geometry/Interval.hpp"]}
{"id": "C44", "title": "Writing through the payload reference returned by nearest", "statement": "A write through the payload reference returned by nearest(q) changes the payload of exactly the returned point: later nearest calls return the same points as before, with the new payload for that point and the old payloads for all others; search, insert, size and empty are unaffected.", "quantifier": "for every history, query, update function, payload type, dimension, scalar type", "why_tests_cant": "Quantifies over all tree shapes, positions of the updated node and later queries.", "anchors": ["src/include/Geometry/KdTree.hpp: nearest (reference to payload)"]}
{"id": "C45", "title": "Equality operators of the primitives", "statement": "operator== of Line, Ray, Segment, Plane, Sphere, Circle2, Circle3, Cone, Cylinder and Cuboid is reflexive, and equal objects agree up to eps in every coordinate and radius.", "quantifier": "for every dimension, all objects, every eps >= 0 and every comparison implementation meeting the contract", "why_tests_cant": "Universal over real coordinates and tolerances.", "anchors": ["src/include/Geometry/Line.hpp", "src/include/Geometry/Ray.hpp", "src/include/Geometry/Segment.hpp", "src/include/Geometry/Plane.hpp", "src/include/Geometry/Sphere.hpp", "src/include/Geometry/Circle.hpp", "src/include/Geometry/Cone.hpp", "src/include/Geometry/Cylinder.hpp", "src/include/Geometry/Cuboid.hpp"]}
{"id": "C46", "title": "Queries of segment, circle, cone, cylinder and cuboid", "statement": "Segment length/direction reconstruct the target; the cone height, slant height (distance from the peak to every base circle point) and opening angle are right; calc_cuboid_vertices lists the origin plus every subset of the side vectors once; a cuboid built from a diagonal is axis-parallel with far corner origin + diagonal; circle setters accept exactly non-negative radii and unit normals.", "quantifier": "for all real inputs", "why_tests_cant": "Universal over real coordinates.", "anchors": ["src/include/Geometry/Segment.hpp", "src/include/Geometry/Cone.hpp", "src/include/Geometry/Cuboid.hpp", "src/include/Geometry/Circle.hpp"]}
{"id": "C47", "title": "Equality of mesh elements and membership", "statement": "operator== of Vertex, Halfedge and Facet is an equivalence without undefined behaviour, and HalfedgeMesh::contains is true exactly for the elements of the mesh.", "quantifier": "for every well formed mesh and all elements", "why_tests_cant": "The failing inputs (copies of a vertex taken at different times, halfedges of other meshes) are not in the tests; characterised for all lists.", "anchors": ["src/include/Geometry/HalfedgeMesh/Vertex.hpp: operator==", "src/include/Geometry/HalfedgeMesh/Halfedge.hpp: operator==", "src/include/Geometry/HalfedgeMesh/HalfedgeMesh.hpp: contains"]}
{"id": "C48", "title": "Translating the mesh points translates the mesh", "statement": "After MeshPoints::transform the mesh is the well formed mesh of the translated triangles.", "quantifier": "for every mesh and every translation vector, real arithmetic", "why_tests_cant": "Universal over meshes and vectors.", "anchors": ["src/include/Geometry/HalfedgeMesh/MeshPoints.hpp: transform"]}
{"id": "C49", "title": "Component extraction is lossless", "statement": "vectorsToComponents yields component c of point i at position 3i+c and has three times as many entries as there are points.", "quantifier": "for every point list", "why_tests_cant": "Universal over lists.", "anchors": ["src/include/Geometry/HalfedgeMesh/MeshPoints.hpp: vectorsToComponents"]}
{"id": "C50", "title": "Point lookup terminates and decides membership", "statement": "MeshPoints::contains terminates and returns an index of a matching point exactly if there is one.", "quantifier": "for every point list and every index type", "why_tests_cant": "The loop counter has the index type; the failure needs as many points as index values.", "anchors": ["src/include/Geometry/HalfedgeMesh/MeshPoints.hpp: contains"]}
{"id": "C51", "title": "Mesh builders honour their setters", "statement": "What a builder builds is determined by the values set last, whatever was set or built before: after any sequence of setter and build calls, build returns the mesh a fresh builder returns for that configuration.", "quantifier": "for every call history and every scalar type", "why_tests_cant": "Universal over call histories; the failing histories (set after build) are not in the tests.", "anchors": ["src/include/Geometry/HalfedgeMeshBuilder/SphereMeshBuilder.hpp: set_origin, set_radius, set_sphere, build", "src/include/Geometry/HalfedgeMeshBuilder/CuboidMeshBuilder.hpp: set_origin, set_diagonal, set_cuboid, build"]}
{"id": "C52", "title": "Tessellated cone, cylinder and cuboid facets point outwards", "statement": "In the meshes built for a cone, a cylinder and a cuboid every facet normal is a unit vector pointing away from the inside.", "quantifier": "for all azimuth counts >= 3, all non-degenerate shapes, all inner points of the axis (of the cuboid)", "why_tests_cant": "Unbounded family of meshes with real coordinates; the tests count elements only.", "anchors": ["src/include/Geometry/HalfedgeMeshBuilder/ConeMeshBuilder.hpp", "src/include/Geometry/HalfedgeMeshBuilder/CylinderMeshBuilder.hpp", "src/include/Geometry/HalfedgeMeshBuilder/CuboidMeshBuilder.hpp", "src/include/Geometry/HalfedgeMeshBuilder/MeshBuilderBase.hpp"]}
{"id": "C53", "title": "The sweep status comparison is a strict weak ordering", "statement": "Whenever the sweep inserts into or searches the status set, the comparison function is a strict weak ordering of the segments involved (as std::set requires; otherwise the behaviour is undefined).", "quantifier": "for every list of segments, every event order, every point of the run", "why_tests_cant": "A violated comparator precondition shows up as silently wrong order or corruption, and only for some configurations.", "anchors": ["src/include/Geometry/Intersect/BentleyOttmann.hpp: compStatus"]}
{"id": "C54", "title": "Printed mesh elements show their own numbers and positions", "statement": "The debug output of a vertex, halfedge or facet of a well-formed mesh shows, under each caption, the number or position of that very element; printing all elements of a mesh stays in defined behaviour and gives one line per element.", "quantifier": "for every triangle sequence, mesh built from it and element of the mesh", "why_tests_cant": "Printed text is compared by nobody; the tests only call the print functions, and on a first element wrong and right numbers coincide.", "anchors": ["src/include/Geometry/HalfedgeMesh/DebugHelper.hpp: print overloads"]}
{"id": "C55", "title": "Boxes of floating point numbers are exact", "statement": "In floating point arithmetic make_aabb returns exactly the least and greatest coordinates of the given points, adding points and boxes never rounds a bound and leaves nothing out by more than the comparison tolerance, and box intersection is the exact set intersection; this holds without any restriction on the size of the finite coordinates.", "quantifier": "for every IEEE binary format, all finite points and boxes, all growth histories", "why_tests_cant": "Rounding, overflow and signed zero effects depend on bit patterns; tests use small integers.", "anchors": ["src/include/Geometry/AABB.hpp: add, make_aabb", "src/include/Geometry/ExtremePointsInDirection.hpp", "src/include/Geometry/Intersect/IntersectAABB.hpp: is_intersecting, intersect"]}
{"id": "C56", "title": "The centre of a box is in the box in floating point", "statement": "For finite corners with min <= max the computed centre is finite and lies between the corners on every axis.", "quantifier": "for every IEEE binary format, every dimension, every box", "why_tests_cant": "Fails only for extents beyond the largest number, and could fail by one rounding error on any narrow box.", "anchors": ["src/include/Geometry/AABB.hpp: center"]}
{"id": "C57", "title": "Ray/box test in floating point", "statement": "In floating point arithmetic the ray/box test reports every ray that passes through the box and reports no ray that stays away from it by more than the rounding error of the slab distances and the comparison tolerance.", "quantifier": "for every IEEE binary format, all finite rays and boxes without overflow", "why_tests_cant": "Rounding near the rim of a box depends on bit patterns; a test picks rays far from the rim.", "anchors": ["src/include/Geometry/Intersect/IntersectAABB.hpp: is_intersecting(Ray, AABB)", "src/include/Geometry/Intersect/IntersectAABBHelper.hpp"]}
{"id": "C58", "title": "a != b is the negation of a == b", "statement": "For every shape, box, interval and mesh element the operator != is defined whenever == is and returns its negation.", "quantifier": "for every scalar type with a comparison that does not depend on operand order, all pairs of values", "why_tests_cant": "!= is written with swapped operands in most classes; a difference shows only for asymmetric comparisons and for elements of different length.", "anchors": ["src/include/Geometry/Line.hpp: operator!=", "src/include/Geometry/Ray.hpp: operator!=", "src/include/Geometry/Plane.hpp: operator!=", "src/include/Geometry/Segment.hpp: operator!=", "src/include/Geometry/Sphere.hpp: operator!=", "src/include/Geometry/Circle.hpp: operator!=", "src/include/Geometry/Cone.hpp: operator!=", "src/include/Geometry/Cylinder.hpp: operator!=", "src/include/Geometry/Cuboid.hpp: operator!=", "src/include/Geometry/Interval.hpp: operator!=", "src/include/Geometry/AABB.hpp: operator!=", "src/include/Geometry/HalfedgeMesh/Vertex.hpp: operator!=", "src/include/Geometry/HalfedgeMesh/Halfedge.hpp: operator!=", "src/include/Geometry/HalfedgeMesh/Facet.hpp: operator!="]}
{"id": "C59", "title": "Facet normals are sorted by a strict weak ordering", "statement": "When calc_vertex_normals sorts the normals of the facets around a vertex, its comparison is a strict weak ordering of them (std::sort has undefined behaviour otherwise).", "quantifier": "for every mesh, every vertex and every IEEE binary format", "why_tests_cant": "The precondition of std::sort fails silently and only with NaN normals, which come from degenerate facets.", "anchors": ["src/include/Geometry/HalfedgeMesh/CalcVertexNormals.hpp: calc_vertex_normals"]}
{"id": "C60", "title": "Mesh construction in floating point", "statement": "In floating point arithmetic, adding triangles and pairing their halfedges gives the same structure as with exact numbers: one vertex per corner point, halfedges that follow the triangles, opposites that belong to the same edge, and a mesh that is_valid accepts exactly if no edge is used more than twice in one direction.", "quantifier": "for every IEEE binary format, every triangle sequence with finite coordinates, every index type that is large enough", "why_tests_cant": "The halfedges are paired by a nearest-neighbour search on computed squared distances; these underflow or tie only for particular coordinates.", "anchors": ["src/include/Geometry/HalfedgeMeshBuilder/MeshTriangleAdder.hpp", "src/include/Geometry/KdTree.hpp: nearest", "src/include/Geometry/HalfedgeMesh/HalfedgeMesh.hpp: is_valid"]}
{"id": "C61", "title": "Tessellations are closed in floating point", "statement": "In floating point arithmetic the meshes built for a sphere, cone, cylinder and cuboid are valid closed surfaces on the vertices computed for the shape.", "quantifier": "for every IEEE binary format, all azimuth and polar counts, all shapes", "why_tests_cant": "Corners that are computed twice may differ by one rounding error, which leaves holes; it depends on the bit patterns of the sides.", "anchors": ["src/include/Geometry/HalfedgeMeshBuilder/SphereMeshBuilder.hpp", "src/include/Geometry/HalfedgeMeshBuilder/ConeMeshBuilder.hpp", "src/include/Geometry/HalfedgeMeshBuilder/CylinderMeshBuilder.hpp", "src/include/Geometry/HalfedgeMeshBuilder/CuboidMeshBuilder.hpp", "src/include/Geometry/HalfedgeMeshBuilder/MeshBuilderBase.hpp"]}
{"id": "C62", "title": "Volume of the tessellations", "statement": "The facets of the meshes built for a sphere, cone, cylinder and cuboid enclose the volume of the inscribed polyhedron with outward orientation: a/3 sin(2pi/a)(1+cos(pi/p)) r^3 for a sphere, the regular a-gon times the height (a third of it for a cone), the product of the sides for a cuboid; it stays below the volume of the curved shape and tends to it as the counts grow.", "quantifier": "for all counts, all shapes with positive measures, exact numbers", "why_tests_cant": "Tests look at a few counts and at the number of facets; a facet built with wrong corners or turned the wrong way keeps these numbers.", "anchors": ["src/include/Geometry/HalfedgeMeshBuilder/SphereMeshBuilder.hpp", "src/include/Geometry/HalfedgeMeshBuilder/ConeMeshBuilder.hpp", "src/include/Geometry/HalfedgeMeshBuilder/CylinderMeshBuilder.hpp", "src/include/Geometry/HalfedgeMeshBuilder/CuboidMeshBuilder.hpp"]}
{"id": "C63", "title": "Tessellations are convex and fit their shapes", "statement": "No point of the mesh built for a sphere, cone, cylinder or right-handed cuboid lies in front of a facet. The solid bounded by the facets contains the shape shrunk to the inscribed circles (radius r cos(pi/a), for a sphere r cos(pi/2p) cos(pi/a)) and is contained in the shape itself; for a cuboid it is exactly the cuboid. With left-handed sides the cuboid lies in front of all its facets.", "quantifier": "for all counts, all shapes with positive measures, all points of space, exact numbers", "why_tests_cant": "A mesh with the right counts, volume and normals may still be dented or stick out of the shape somewhere; tests do not sample the space around each facet.", "anchors": ["src/include/Geometry/HalfedgeMeshBuilder/SphereMeshBuilder.hpp", "src/include/Geometry/HalfedgeMeshBuilder/ConeMeshBuilder.hpp", "src/include/Geometry/HalfedgeMeshBuilder/CylinderMeshBuilder.hpp", "src/include/Geometry/HalfedgeMeshBuilder/CuboidMeshBuilder.hpp"]}
{"id": "C64", "title": "Recursion depth of the k-d tree", "statement": "insert, search, nearest and the destructor of a tree nest at most k+1 calls for k stored points, nearest evaluates at most k+1 distances, and the destructor destroys every stored value exactly once. The nesting should be logarithmic in k.", "quantifier": "for all histories of calls, all scalar types, dimensions and payload types; for all k", "why_tests_cant": "The nesting depends on the order of insertion; tests insert a handful of points, for which any depth is fine.", "anchors": ["src/include/Geometry/KdTree.hpp"]}
{"id": "C65", "title": "Directions are normalised in floating point", "statement": "The direction stored by the constructors of Line, Ray and Plane is a finite vector within n+3 rounding errors of the unit vector in the given direction; length and direction of a segment are within n+3 and n+6 rounding errors of the exact ones. This should hold for every finite nonzero vector.", "quantifier": "for every IEEE binary format, every dimension, all finite vectors", "why_tests_cant": "Tests use small integers; the errors and the vectors whose squares overflow or vanish are outside the tested range.", "anchors": ["src/include/Geometry/Line.hpp", "src/include/Geometry/Ray.hpp", "src/include/Geometry/Plane.hpp", "src/include/Geometry/Segment.hpp"]}
{"id": "C66", "title": "Distances to spheres and planes in floating point", "statement": "The signed and unsigned distance of a point to a sphere and the distance of a point to a plane are finite and within a few rounding errors of the exact set distance; the containment test of a sphere accepts every point inside by more than the rounding error, and accepts a point outside only within tolerance and rounding error. This should hold for all finite points.", "quantifier": "for every IEEE binary format of at least 7 bits, all finite points, radii and planes", "why_tests_cant": "Tests use small integers whose squares are exact; rounding, cancellation and overflow are outside the tested range.", "anchors": ["src/include/Geometry/Sphere.hpp", "src/include/Geometry/Distance/DistanceSphere.hpp", "src/include/Geometry/Distance/DistancePlane.hpp"]}
{"id": "C67", "title": "Distances to lines and rays in floating point", "statement": "The distance of a point to a line or ray is finite and differs from the exact set distance (to the line or ray given by origin and unnormalised direction) by a few rounding errors of the distance to the origin, and for rays by the tolerance. This should hold for all finite points.", "quantifier": "for every IEEE binary format, every dimension, all finite points, origins and directions", "why_tests_cant": "Tests use axis-parallel directions and small integers, where projection and normalisation are exact.", "anchors": ["src/include/Geometry/Distance/DistanceLine.hpp", "src/include/Geometry/Distance/DistanceRay.hpp"]}
{"id": "C68", "title": "Sphere meshes are closed and accurate in floating point", "statement": "With cosine, sine and pi accurate to a given error, the mesh built for a sphere is a closed surface: building succeeds, no two vertices coincide or are merged, every vertex is within a few errors times the radius (plus rounding of the centre) of exactly one exact vertex of the sphere, and each exact vertex has exactly one vertex near it, as long as radius divided by the number of vertices exceeds these errors.", "quantifier": "for every IEEE binary format, all step counts, all finite spheres in range, all trigonometric functions of the stated accuracy", "why_tests_cant": "Tests build one or two spheres of radius 1 to 2 with default step counts; coinciding vertices depend on rounding of the trigonometric functions.", "anchors": ["src/include/Geometry/HalfedgeMeshBuilder/SphereMeshBuilder.hpp", "src/include/Geometry/Sphere.hpp", "src/include/Geometry/HalfedgeMeshBuilder/MeshBuilderBase.hpp"]}
{"id": "C69", "title": "What HalfedgeMesh::is_valid accepts", "statement": "On an arbitrary mesh is_valid answers without undefined behaviour and accepts exactly the meshes whose elements have set indices and pointers, sorted halfedge lists, and halfedges whose next, previous and opposite halfedges link back to them. In an accepted mesh next, previous and opposite are permutations, every facet can be traversed in finitely many steps, and all stored indices can be followed.", "quantifier": "for every mesh in every memory, built by the library or not, with and without assertions", "why_tests_cant": "Tests call is_valid on meshes built by the library only; invalid meshes and meshes with indices out of range are not tested.", "anchors": ["src/include/Geometry/HalfedgeMesh/HalfedgeMesh.hpp: is_valid", "src/include/Geometry/HalfedgeMesh/Halfedge.hpp: is_valid_halfedge_impl", "src/include/Geometry/HalfedgeMesh/Vertex.hpp: is_valid", "src/include/Geometry/HalfedgeMesh/Facet.hpp: is_valid", "src/include/Geometry/HalfedgeMesh/CalcFaceHalfedges.hpp: calc_halfedges"]}
{"id": "C70", "title": "Cone and cylinder meshes are closed and accurate in floating point", "statement": "With cosine, sine, pi and the rotation of the z axis onto the axis of the shape accurate to a given error, the meshes built for cones and cylinders are closed surfaces: building succeeds, no two vertices coincide or are merged, every vertex is within a fixed multiple of the error times the size (plus rounding of the position) of exactly one exact vertex - the ends of the axis and the equally spaced points of the rims - and each exact vertex has exactly one vertex near it, as long as the shape is large enough compared with these errors.", "quantifier": "for every IEEE binary format, all step counts, all finite axes and radii in range, all trigonometric functions and rotation matrices of the stated accuracy", "why_tests_cant": "Tests build one cone and one cylinder with default step counts and count facets; coinciding or displaced vertices depend on rounding in the trigonometric functions, the length of the axis and the product with the placement matrix.", "anchors": ["src/include/Geometry/HalfedgeMeshBuilder/ConeMeshBuilder.hpp", "src/include/Geometry/HalfedgeMeshBuilder/CylinderMeshBuilder.hpp", "src/include/Geometry/HalfedgeMeshBuilder/MeshBuilderBase.hpp", "src/include/Geometry/HalfedgeMeshBuilder/DiscretizeCircle.hpp"]}
{"id": "C71", "title": "Transformations in floating point", "statement": "Transforming a point, segment, sphere, cone, cylinder or circle by a matrix of finite entries gives the exact image up to six roundings of the sum of the absolute values of the terms, leaves radii unchanged, and preserves distances up to a small error if the matrix is close to a rigid motion; transforming a box by a matrix without negative entries in its linear part gives a box containing the computed image of every point of the box, and never aborts for a valid box.", "quantifier": "for every IEEE binary format of enough precision, all finite matrices and points whose terms do not overflow, D = 2 and 3 for points and boxes", "why_tests_cant": "Tests transform a few points by exactly representable matrices; rounding errors, cancellation and merging corners far from the origin do not occur.", "anchors": ["src/include/Geometry/Transform/TransformVec.hpp", "src/include/Geometry/Transform/TransformAABB.hpp", "src/include/Geometry/Transform/TransformSegment.hpp", "src/include/Geometry/Transform/TransformSphere.hpp", "src/include/Geometry/Transform/TransformCone.hpp", "src/include/Geometry/Transform/TransformCylinder.hpp", "src/include/Geometry/Transform/TransformCircle.hpp"]}
{"id": "C72", "title": "Intersections of planes with lines, rays and segments in floating point", "statement": "The point reported for a plane and a line, ray or segment is within a few rounding errors of a point of the line (of positive parameter for rays, of parameter in (0, 1 + tolerance] for segments) that lies on the plane up to a few rounding errors of the distances involved, so that its distance to the exact intersection is this error divided by the sine of the angle; nothing is reported only if line and plane are parallel up to the tolerance and rounding, or the exact parameter is not clearly inside the range.", "quantifier": "for every IEEE binary format of enough precision and all finite inputs whose slope does not overflow", "why_tests_cant": "Tests intersect axis-parallel objects with small integer coordinates, where every operation is exact; nothing is rounded and nothing cancels.", "anchors": ["src/include/Geometry/Intersect/IntersectPlane.hpp"]}
{"id": "C73", "title": "Intersections of lines and segments of the plane in floating point", "statement": "The point reported for two lines or two segments of the plane is within a few rounding errors of both, for segments with parameters between 0 and 1 up to the tolerance; lines are reported unless they are parallel up to tolerance and rounding, and segments that cross clearly inside are reported; the debug assertion that both parameters give the same point never fails for such segments.", "quantifier": "for every IEEE binary format of enough precision and all finite inputs whose determinant does not overflow; for the converse and the assertion, all inputs without overflow whose determinant exceeds its rounding error", "why_tests_cant": "Tests cross segments at points with small dyadic coordinates, where both parameters are exact and both points are identical.", "anchors": ["src/include/Geometry/Intersect/IntersectLine.hpp", "src/include/Geometry/Intersect/IntersectSegment.hpp"]}
{"id": "C74", "title": "Intersections with spheres in floating point", "statement": "A point reported for a sphere and a line, ray or segment is finite and within a few rounding errors of the line and of the sphere, with a parameter in the allowed range up to the tolerance; if the line clearly crosses the sphere both common points are approximated by reported points, and if it clearly passes by nothing is reported.", "quantifier": "for every IEEE binary format of enough precision and all finite inputs whose squared lengths neither overflow nor underflow; nearly tangent lines and rays only with a direction of length one", "why_tests_cant": "Tests use spheres and lines whose discriminant is computed without rounding; how an error of the discriminant moves the roots cannot be seen from them.", "anchors": ["src/include/Geometry/Intersect/IntersectSphere.hpp"]}
{"id": "C75", "title": "Closest points of lines in space and their intersections in floating point", "statement": "For two lines in space that are not nearly parallel the computed parameters of their closest points differ from the exact ones by a bounded multiple of the rounding unit; whatever the operands, a point reported for two lines is finite, nearly on the first line and, up to the tolerance and roundings, on the second; lines that meet clearly are reported to meet near the meeting point; points reported for segments and rays are near the closest points, whose parameters are in range.", "quantifier": "for every IEEE binary format of enough precision and all finite inputs whose lengths are of moderate size (soundness for lines: all inputs, including NaN and infinities)", "why_tests_cant": "Tests use axis-parallel lines, where every intermediate result is exact; the loss of accuracy grows with the cube of the inverse sine of the angle, which a finite set of angles does not show.", "anchors": ["src/include/Geometry/ClosetPointOnLine.hpp", "src/include/Geometry/Intersect/IntersectLine.hpp", "src/include/Geometry/Intersect/IntersectSegment.hpp"]}
{"id": "C76", "title": "Distances between lines, rays and segments in floating point", "statement": "For a line and a ray that are not nearly parallel the computed distance is finite and differs from the distance of the two sets by a bounded multiple of the rounding unit, wherever the closest point of the ray's line is; for two such lines the computed number is, up to roundings, the distance or its opposite; a finite distance computed for a segment and a point, or for a segment and a ray that are not parallel, is never smaller than the distance up to roundings, and it is accurate when the closest points are inside.", "quantifier": "for every IEEE binary format of enough precision and all finite inputs whose lengths are of moderate size (upper bounds: all inputs with a finite result)", "why_tests_cant": "The choice between the branches is made on a rounded parameter, so inputs near the switch take the wrong branch; that the result stays accurate there is a statement about all such inputs and not about sampled ones.", "anchors": ["src/include/Geometry/Distance/DistanceLine.hpp", "src/include/Geometry/Distance/DistanceRay.hpp", "src/include/Geometry/Distance/DistanceSegment.hpp"]}
{"id": "C77", "title": "Facet and vertex normals in floating point", "statement": "The computed normal of a facet that is not a sliver for the precision is finite, nearly of length one, and within 24 rounding units (divided by the sine of the corner angle) of the unit normal of the stored triangle; the computed normal of a vertex all of whose facets face one side is finite, nearly of length one and faces that side; but facets in one plane are not counted once, because their rounded normals differ.", "quantifier": "for every IEEE binary format of enough precision, every mesh built by adding triangles, and all facets of moderate size at every vertex with a bounded number of facets", "why_tests_cant": "The error depends on the angles of every facet and on the order of summation at every vertex; whether two coplanar facets give equal rounded normals depends on the last bit.", "anchors": ["src/include/Geometry/HalfedgeMesh/CalcFacetNormal.hpp", "src/include/Geometry/HalfedgeMesh/CalcVertexNormals.hpp"]}
{"id": "C78", "title": "The sweep over line segments in floating point", "statement": "For segments whose order and crossings are clear of the rounding errors, the sweep on floating-point coordinates orders the status as the exact sweep does, reports as many points as the exact sweep, in the same order and each within the tolerance of the exact one; so it reports something exactly if two segments meet, and each crossing once if no three segments span one abscissa. Whatever the input, every reported point is nearly on two of the segments. Without the margin a crossing in general position is missed.", "quantifier": "for every IEEE binary format of enough precision, every sorted container, every number of segments of moderate size and every order in which the queue may deliver equal events", "why_tests_cant": "The margin depends on every pair of segments, and one comparison rounded differently changes the whole status.", "anchors": ["src/include/Geometry/Intersect/BentleyOttmann.hpp", "src/include/Geometry/Segment.hpp"]}
{"id": "C79", "title": "Tessellations in floating point face outwards", "statement": "For spheres, cones and cylinders that are large enough for the number of their facets and the precision, every facet of the mesh built in floating point turns counter-clockwise seen from outside (exactly, as a triangle of the stored points, with the centre or the middle of the axis inside), and the normal that the code computes for it is finite, of length one up to rounding, and points away from the centre at every corner.", "quantifier": "for every IEEE binary format, every accuracy of cosine, sine and pi, every number of steps, every position, size and axis within the stated margins", "why_tests_cant": "A single facet turned over by rounding suffices; the smallest facets, near the poles of a fine sphere, are the critical ones and depend on the number of steps and the distance from the origin.", "anchors": ["src/include/Geometry/HalfedgeMeshBuilder/SphereMeshBuilder.hpp", "src/include/Geometry/HalfedgeMeshBuilder/ConeMeshBuilder.hpp", "src/include/Geometry/HalfedgeMeshBuilder/CylinderMeshBuilder.hpp", "src/include/Geometry/HalfedgeMesh/CalcFacetNormal.hpp"]}
{"id": "C80", "title": "Vertex normals of the tessellations point outwards", "statement": "calc_vertex_normals returns one normal per vertex of every sphere, cone, cylinder and right-handed cuboid built by the library; each is a unit vector and points away from every inner point (the centre, the inner points of the axis, the inside of the cuboid), whatever comparison removes equal facet normals. For left-handed cuboids they all point inwards. In floating point the normals are finite, of length one up to rounding, and still point outwards if there are enough digits for the number of steps.", "quantifier": "for every number of steps, size and position in exact arithmetic; for every IEEE binary format, every accuracy of cosine, sine and pi and every comparison of vectors within the stated margins", "why_tests_cant": "The normal of a pole sums as many facet normals as there are steps, and removing equal normals depends on their order; whether a sum of rounded normals keeps its side cannot be seen from a few meshes.", "anchors": ["src/include/Geometry/HalfedgeMesh/CalcVertexNormals.hpp", "src/include/Geometry/HalfedgeMesh/CalcVertexFacets.hpp", "src/include/Geometry/HalfedgeMesh/CalcFacetNormal.hpp", "src/include/Geometry/HalfedgeMeshBuilder/SphereMeshBuilder.hpp", "src/include/Geometry/HalfedgeMeshBuilder/ConeMeshBuilder.hpp", "src/include/Geometry/HalfedgeMeshBuilder/CylinderMeshBuilder.hpp", "src/include/Geometry/HalfedgeMeshBuilder/CuboidMeshBuilder.hpp"]}
{"id": "C81", "title": "The volume of the tessellations in floating point", "statement": "Measured from any point, the exact volume enclosed by the facets of a sphere, cone or cylinder built in floating point differs from that of the ideal inscribed polyhedron (a/3 sin(2 pi/a)(1+cos(pi/p)) r^3; a/2 sin(2 pi/a) r^2 l/3; a/2 sin(2 pi/a) r^2 l) by at most one and a half times the number of facets times the error of a vertex times the square of the size, and so lies between known multiples of the volume of the ball, cone or cylinder up to that error. In double precision the error for the sphere is at most 2^-30 r^3 for each pair of steps.", "quantifier": "for every IEEE binary format, every number of steps, size and position within the range of the format, every accuracy of cosine, sine and pi and every comparison of vectors within the stated margins", "why_tests_cant": "The volume depends on all vertices and facets at once: one missing, doubled or flipped facet or one vertex joined wrongly by the tolerant comparison changes it, for sizes and step counts that no test enumerates.", "anchors": ["src/include/Geometry/HalfedgeMeshBuilder/SphereMeshBuilder.hpp", "src/include/Geometry/HalfedgeMeshBuilder/ConeMeshBuilder.hpp", "src/include/Geometry/HalfedgeMeshBuilder/CylinderMeshBuilder.hpp", "src/include/Geometry/HalfedgeMeshBuilder/MeshBuilderBase.hpp", "src/include/Geometry/HalfedgeMeshBuilder/MeshTriangleAdder.hpp"]}
{"id": "C82", "title": "Nearly equal corners are welded", "statement": "When operator== on vectors sorts the corners of the given triangles into groups, the builder makes the same mesh as from the triangles in which every corner is replaced by the first corner equal to it. For a cuboid with sides in any directions, in floating point: if the comparison identifies points up to twice the rounding error of a corner apart, and the volume spanned by the sides is large enough for it to keep different corners apart, then the builder returns, in debug and release builds, a closed valid mesh with eight different vertices, twelve facets and thirty-six halfedges; every vertex is within the rounding error of its own exact corner; the volume is the determinant of the sides up to a stated error; and for right-handed sides all facets, facet normals and vertex normals point away from the centre. Comparing coordinates up to a tolerance w meets these conditions when w is at least twice the rounding error and at most 1/32 of the determinant divided by the square of the largest coordinate of a side.", "quantifier": "for every scalar type and list of triangles (welding); for every IEEE binary format, every origin and sides within its range, every comparison of vectors and every tolerance within the stated margins (cuboids)", "why_tests_cant": "The corners of a turned cuboid are added up in different orders, so that they agree only up to rounding; whether they become eight vertices depends on the direction of the sides, the position and the tolerance together.", "anchors": ["src/include/Geometry/HalfedgeMeshBuilder/CuboidMeshBuilder.hpp", "src/include/Geometry/HalfedgeMeshBuilder/MeshTriangleAdder.hpp", "src/include/Geometry/HalfedgeMesh/MeshPoints.hpp"]}
{"id": "C83", "title": "Entry and exit points of rays and boxes in floating point", "statement": "intersect(Ray, AABB) in floating point never fails, in debug and release builds. A reported entry (exit) point is finite, lies on the ray at a parameter a (c) up to rounding, in the box up to rounding, and up to rounding on the side through which the ray enters (leaves) the box on one of the axes along which it moves; coordinates along which the ray does not move are those of the origin. Whenever something is reported, the ray is in the box at no parameter before a or after c, up to the rounding margin divided by the direction. If the ray stays in the box shrunk by the margin for longer than the tolerance and not only behind its origin, the exit point is reported; the entry point is reported too if the ray is not near the box behind its origin, and is not if the ray is in the shrunk box further behind than the tolerance. If the ray stays away from the enlarged box nothing is reported. Without an allowance for rounding: the entry point is in the box.", "quantifier": "for every IEEE binary format with at least seven bits, every finite ray and box whose direction components are 0 or beyond the tolerance and whose parameters do not overflow, every comparison with tolerance within the contract, debug and release", "why_tests_cant": "The parameter of the side is a product with a rounded reciprocal, the point is another rounded product and sum; whether a point is just inside or outside depends on all of them, and axis-parallel rays use infinities.", "anchors": ["src/include/Geometry/Intersect/IntersectAABB.hpp", "src/include/Geometry/Intersect/IntersectAABBHelper.hpp"]}
{"id": "C84", "title": "Heights, slant height and opening angle of cones in floating point", "statement": "In floating point the height of a cone or cylinder is finite and within six rounding errors (relative) of the distance of its end points; the slant height of a cone is finite and within nine rounding errors of the distance of the peak to every point of the base circle; the opening angle is finite and, relative to the angle whose half has tangent radius / height, within eight rounding errors plus twice the error of the arc tangent. For every finite radius the slant height is finite.", "quantifier": "for every IEEE binary format with at least seven bits, every finite base, peak and radius whose squares neither overflow nor vanish, every arc tangent with a relative error bound", "why_tests_cant": "The errors of the subtraction, the length, the division and the arc tangent accumulate, and the relative error of an angle depends on the concavity of the arc tangent; overflow needs extreme radii.", "anchors": ["src/include/Geometry/Cone.hpp", "src/include/Geometry/Cylinder.hpp", "src/include/Geometry/Segment.hpp"]}
{"id": "C85", "title": "Extent of points along a direction in floating point", "statement": "extreme_points_along_direction in floating point returns finite limits in order, and each differs from the least (largest) exact projection of the points on the direction by at most the rounding error of one projection; every single point lies between the limits up to the rounding error of its own projection. The same holds whenever the projections are in the range of the number type.", "quantifier": "for every IEEE binary format, dimension, direction and non-empty list of finite points whose distance to the origin times the length of the direction is below a quarter of the overflow threshold, debug and release", "why_tests_cant": "The limits are selected by comparing rounded projections, so the selected point may be a wrong one; the error of the value has to be bounded independently of the selection. Overflow of partial sums needs extreme points.", "anchors": ["src/include/Geometry/ExtremePointsInDirection.hpp"]}
{"id": "C86", "title": "The sweep reports at most three points per segment", "statement": "findIntersections of Bentley-Ottmann appends at most two points for each start event and one for each end event, so its result has at most three times as many points as there are segments, whatever the order of events, the set and the comparison; of m different crossings of n segments at least m - 3n are not reported. For scenes of every size in general position all crossings are reported.", "quantifier": "for every scalar type (floating point included), every list of segments, every order of its events, every container; the last clause for scenes of 2k segments, every k", "why_tests_cant": "A scene with a quadratic number of crossings has to be built and counted; a test of a few segments cannot show that the number of reported points grows linearly.", "anchors": ["src/include/Geometry/Intersect/BentleyOttmann.hpp"]}
{"id": "C87", "title": "Area of the tessellations", "statement": "The sum of the facet areas of a tessellated cone, cylinder and cuboid is given by a closed formula; that of a sphere lies between two closed formulas. It is always below the area of the curved shape, and misses it at most by a factor that tends to 1 as the discretisation counts grow; for a cuboid it is the area of the six faces.", "quantifier": "for every position, size and axis of the shape, every count of at least 2 polar and 3 azimuthal steps, exact arithmetic", "why_tests_cant": "Convergence is a statement over all counts; a hole, an overlap, a degenerate or a doubled facet would change the area by an amount a test at one resolution cannot distinguish from discretisation error.", "anchors": ["src/include/Geometry/HalfedgeMeshBuilder/SphereMeshBuilder.hpp", "src/include/Geometry/HalfedgeMeshBuilder/ConeMeshBuilder.hpp", "src/include/Geometry/HalfedgeMeshBuilder/CylinderMeshBuilder.hpp", "src/include/Geometry/HalfedgeMeshBuilder/CuboidMeshBuilder.hpp"]}
{"id": "C88", "title": "Area of the tessellations in floating point", "statement": "The exact area of the facets spanned by the computed vertices of a sphere, cone or cylinder mesh differs from that of the exact tessellation by at most a multiple of the number of facets, the size and the vertex error; in double precision the relative error for a sphere is at most 2^-28 per facet.", "quantifier": "for every IEEE binary format, every sufficiently accurate cos, sin and rotation, every shape whose vertices are separated by more than the rounding error", "why_tests_cant": "Rounding moves every vertex; the area of a polyhedron is not continuous under refinement (lantern of Schwarz), so smallness of vertex errors alone does not bound the area and the bound has to count the facets.", "anchors": ["src/include/Geometry/HalfedgeMeshBuilder/SphereMeshBuilder.hpp", "src/include/Geometry/HalfedgeMeshBuilder/ConeMeshBuilder.hpp", "src/include/Geometry/HalfedgeMeshBuilder/CylinderMeshBuilder.hpp"]}
{"id": "C89", "title": "Solids enclosed by tessellations in floating point", "statement": "The polyhedron bounded by the planes through the computed corners of the facets of a sphere, cone or cylinder mesh contains the solid that the exact tessellation contains, reduced by a factor 1-w about its centre, and is itself, reduced by that factor, contained in the solid sphere, cone or cylinder; in double precision w is at most 2^-28 times the square of the polar count times the azimuth count for a sphere.", "quantifier": "for every IEEE binary format, every sufficiently accurate cos, sin and rotation, every shape that is not too small for the number of its facets", "why_tests_cant": "The claim is about every point of space and every facet; the planes of thin facets tilt under rounding, so that the intersection of the half spaces could lose points or become unbounded.", "anchors": ["src/include/Geometry/HalfedgeMeshBuilder/SphereMeshBuilder.hpp", "src/include/Geometry/HalfedgeMeshBuilder/ConeMeshBuilder.hpp", "src/include/Geometry/HalfedgeMeshBuilder/CylinderMeshBuilder.hpp"]}
{"id": "C90", "title": "Area and solid of cuboids in floating point", "statement": "The exact area of the facets of a cuboid mesh with computed corners differs from that of the exact cuboid by at most 360 times the size times the corner error, and the polyhedron bounded by the planes of its facets and the exact solid cuboid contain each other after reduction by a factor 1-w about the centre.", "quantifier": "for every IEEE binary format, every comparison with a tolerance, every (for the solid: right-handed) cuboid that is not too flat for its corner error", "why_tests_cant": "The corners of a cuboid are computed along several paths with different rounding and are welded by operator==; the four corners of a face are then no longer in one plane, and the claim is about every point of space.", "anchors": ["src/include/Geometry/HalfedgeMeshBuilder/CuboidMeshBuilder.hpp"]}
{"id": "C91", "title": "Debug assertions on unit directions in floating point", "statement": "A computed direction has a computed length within 10 units roundoff of 1, so the assertions isEq(length, 1) of Circle3::set_normal and ConeMeshBuilder::build, and !isZero(length) of the latter, hold for every vector of moderate size once the tolerance of isEq is at least 10 units roundoff and that of isZero is below the length; cone meshes are then built in debug mode too. With exact comparison the assertions abort for the direction (1,3,3).", "quantifier": "for every IEEE binary format with emax >= 12, every comparison with a tolerance, every vector whose components are of moderate size", "why_tests_cant": "normalize and length round at every operation and the rounding depends on the vector, so the assertion may hold for all tested directions and abort for another one.", "anchors": ["src/include/Geometry/Circle.hpp:72", "src/include/Geometry/HalfedgeMeshBuilder/ConeMeshBuilder.hpp:45"]}
{"id": "C92", "title": "Which normals the vertices of the tessellations get", "statement": "For the sphere, each vertex normal and each facet normal at its corners differs from the direction centre-to-vertex by at most half a polar plus half an azimuthal step (pi/(2p) + pi/a), whatever comparison removes equal facet normals. With an exact comparison the normals are known in closed form: the axis direction and its opposite at the centres of cylinder and cone base and at the apex of the cone; the direction of 2 cos(pi/a) radial plus or minus the axis on the rims of the cylinder, and the corresponding combination on the rim of the cone; the direction of the sum of the three face normals at the corners of a cuboid. Wall and side facets have a fixed angle to the axis and to the radial direction.", "quantifier": "for every number of steps, size, position and axis, in exact arithmetic", "why_tests_cant": "A vertex normal depends on which facets the traversal collects, on the order of sorting and on the removal of duplicates; a missing or doubled facet changes the normal slightly and differently for every number of steps.", "anchors": ["src/include/Geometry/HalfedgeMesh/CalcVertexNormals.hpp", "src/include/Geometry/HalfedgeMesh/CalcVertexFacets.hpp", "src/include/Geometry/HalfedgeMesh/CalcFacetNormal.hpp", "src/include/Geometry/HalfedgeMeshBuilder/SphereMeshBuilder.hpp", "src/include/Geometry/HalfedgeMeshBuilder/ConeMeshBuilder.hpp", "src/include/Geometry/HalfedgeMeshBuilder/CylinderMeshBuilder.hpp", "src/include/Geometry/HalfedgeMeshBuilder/CuboidMeshBuilder.hpp"]}
{"id": "C93", "title": "The normals of a tessellated sphere in floating point are those of the sphere up to half a step", "statement": "In every IEEE binary format, for a sphere whose position error c (cosine, sine, rounding, comparison slack) satisfies w = 12 np^2 na c / r <= 1/2, each computed vertex normal and each computed facet normal, at each of its corners, is finite, of length one up to 6 units of rounding, has scalar product at least cos(pi/(2 np)) cos(pi/na) - 2w with the direction centre-to-vertex, and differs from it by at most pi/(2 np) + pi/na + 2 np w. For double precision w = 2^-28 np^2 na for centres up to 2^20 radii away.", "quantifier": "for every IEEE format, library trigonometry of the given accuracy, comparison with slack, number of steps, centre and radius within the stated frame", "why_tests_cant": "The errors of sine, cosine, transformation, cross product, two normalisations and the sum accumulate differently for every vertex; samples cannot bound the worst case.", "anchors": ["src/include/Geometry/HalfedgeMesh/CalcVertexNormals.hpp", "src/include/Geometry/HalfedgeMesh/CalcFacetNormal.hpp", "src/include/Geometry/HalfedgeMeshBuilder/SphereMeshBuilder.hpp"]}
{"id": "C94", "title": "The normals of tessellated cylinders and cones in floating point are those of the exact tessellation up to rounding", "statement": "In every IEEE binary format, for a cylinder or cone of radius r and axis length l whose position error c (cosine, sine, placement, rounding, comparison slack) satisfies 16 (r+l)^2 c na <= r^2 l, each computed facet normal is finite, of length one up to 6 units of rounding, and differs by at most 42 na (r+l)^2 c / (r^2 l) from an exact normal that is against the axis at the lower cap, along the axis at the upper cap, perpendicular to the axis and at cosine cos(pi/na) to the spokes at the wall (for a cone: r cos(pi/na)/s along the axis with s the slant of the side), at a point of the exact cap or rim within 2c of the computed corner. The computed vertex normals, whatever comparison drops repeated ones, satisfy with eps = 44 na (r+l)^2 c / (r^2 l) the inequalities of C92 up to eps: at the centre of a cap at least 1 - eps along the outward axis direction, at a rim of a cylinder at least cos(pi/na) - 2 eps along spoke plus outward axis, at the apex of a cone at least r cos(pi/na)/s - eps along the axis, at its rim the scalar product of C92 up to 2 (r+l) eps.", "quantifier": "for every IEEE format, library trigonometry and alignment matrix of the given accuracy, comparison with slack, number of steps, axis and radius within the stated frame", "why_tests_cant": "The error of a normal is the error of the corners magnified by the thinness of the triangle; which triangles are thin depends on radius, length and number of steps, so samples do not bound it.", "anchors": ["src/include/Geometry/HalfedgeMesh/CalcFacetNormal.hpp", "src/include/Geometry/HalfedgeMeshBuilder/CylinderMeshBuilder.hpp", "src/include/Geometry/HalfedgeMeshBuilder/ConeMeshBuilder.hpp", "src/include/Geometry/HalfedgeMesh/CalcVertexNormals.hpp"]}
{"id": "C95", "title": "The status order of the sweep is the vertical order of the segments, independent of their directions", "statement": "The comparison of two segments in the sweep's status compares the ordinates of the points of the two segments' lines at the larger of their two left ends; it does not depend on which end of a segment is its source; it is asymmetric and irreflexive. (Holds when neither segment is vertical; a vertical segment counts with the ordinate of its source, so the claim of independence is false for vertical segments.)", "quantifier": "for every pair of segments in the plane, exact numbers", "why_tests_cant": "The order is a relation on all pairs of segments, with different branches for vertical and reversed ones.", "anchors": ["src/include/Geometry/Intersect/BentleyOttmann.hpp"]}
