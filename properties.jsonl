{"id": "C01", "title": "Rigid transform inverse", "statement": "For every 3D transform whose basis is a rotation, t.inverse()*t and t*t.inverse() are the identity, and t.inverse()*(t*v) = v for every vector v.", "quantifier": "all rotation matrices, all translations, all vectors (exact real arithmetic)", "why_tests_cant": "infinitely many poses; a test samples a few", "anchors": ["include/geolib/math_types.h: Transform3T::inverse, Transform3T::operator*"]}
{"id": "C02", "title": "Transform composition", "statement": "Applying a*b to a point equals applying b and then a; composition is associative, identity() is neutral, inverseTimes(b) is inverse()*b; this holds for every transform, rotation or not.", "quantifier": "all transforms and points", "why_tests_cant": "must hold for all operands", "anchors": ["include/geolib/math_types.h: Transform3T::operator*, identity, inverseTimes, Mat3T::operator*"]}
{"id": "C03", "title": "Roll-pitch-yaw construction", "statement": "setRPY(r,p,y) always produces a proper rotation (orthonormal, determinant +1), namely yaw about z after pitch about y after roll about x.", "quantifier": "all real angle triples", "why_tests_cant": "continuum of angles", "anchors": ["include/geolib/math_types.h: Mat3T::setRPY, Transform3T::setRPY"]}
{"id": "C04", "title": "Roll-pitch-yaw extraction", "statement": "Re-building a pose from the angles returned by getRPY gives the same rotation, and for pitch strictly between -pi/2 and pi/2 (outside the documented 1e-12 singular band) getRPY returns exactly the angles given to setRPY.", "quantifier": "all rotation matrices / all angle triples in the principal range", "why_tests_cant": "continuum of rotations; the singular poses have measure zero so random tests miss them", "anchors": ["include/geolib/math_types.h: Transform3T::getRPY, getYaw, setRPY"]}
{"id": "C05", "title": "Quaternion to matrix", "statement": "setRotation(q) is a proper rotation for every non-zero quaternion, does not depend on the length of q, and rotates vectors exactly as q v q^-1 does.", "quantifier": "all non-zero quaternions, all vectors", "why_tests_cant": "continuum", "anchors": ["include/geolib/math_types.h: Mat3T::setRotation"]}
{"id": "C06", "title": "Matrix to quaternion round trip", "statement": "getRotation of a rotation matrix returns a unit quaternion from which setRotation rebuilds exactly that matrix (in each of the four branches), and getRotation(setRotation(q)) is q or -q for unit q.", "quantifier": "all rotation matrices; all unit quaternions", "why_tests_cant": "the branch taken depends on the trace and on the largest diagonal entry; all must agree", "anchors": ["include/geolib/math_types.h: Mat3T::getRotation, setRotation, Transform3T::getQuaternion"]}
{"id": "C07", "title": "Matrix normalisation", "statement": "normalized() (and in-place normalize()) of a matrix with non-zero columns has unit columns with unchanged directions; in particular it strips any positive per-axis scale from a rotation (used for .dae import).", "quantifier": "all 3x3 matrices with non-zero columns; all rotations and positive scales", "why_tests_cant": "continuum", "anchors": ["include/geolib/math_types.h: Mat3T::normalize, normalized", "src/io/import.cpp: readMeshFile"]}
{"id": "C08", "title": "Rigid transforms are isometries", "statement": "A transform whose basis is a rotation preserves distances, dot products and cross products (orientation).", "quantifier": "all rotations, translations and point pairs", "why_tests_cant": "continuum", "anchors": ["include/geolib/math_types.h: Mat3T::operator*(Vec3T), Vec3T::dot, cross, length"]}
{"id": "C09", "title": "2D transforms and 2D/3D projection", "statement": "Transform2T has the same group laws; rotation() returns the yaw it was built from in (-pi,pi]; projectTo3d commutes with composition, inverse and application and projectTo2d undoes it.", "quantifier": "all 2D transforms, all yaw angles, all points", "why_tests_cant": "continuum", "anchors": ["include/geolib/math_types.h: Transform2T, Mat2T, projectTo2d, projectTo3d"]}
{"id": "C10", "title": "Vector algebra", "statement": "dot/cross/length/normalized satisfy the vector identities users rely on: cross is orthogonal to its arguments, Lagrange's identity, length2 = length^2, normalized of a non-zero vector has length 1 and the same direction.", "quantifier": "all vectors", "why_tests_cant": "continuum", "anchors": ["include/geolib/math_types.h: Vec2T, Vec3T"]}
{"id": "C11", "title": "Stable point indices", "statement": "addPoint returns the index under which getPoints() gives exactly that point, and no later addPoint/addTriangle/add changes the point at an index already handed out.", "quantifier": "all histories of mesh building operations", "why_tests_cant": "unbounded histories", "anchors": ["src/Mesh.cpp: Mesh::addPoint, Mesh::add"]}
{"id": "C12", "title": "Mesh caches are never stale", "statement": "After any sequence of mesh operations (building, clearing, filtering, querying in any order) getMaxRadius, getSquaredMaxRadius and getTriangles return what a computation from the current points and triangles returns.", "quantifier": "all operation histories, every scalar value including NaN, infinities and signed zeros", "why_tests_cant": "cache bugs depend on the interleaving of mutators and queries", "anchors": ["src/Mesh.cpp: invalidateCache, getTriangles, getSquaredMaxRadius, getMaxRadius, filterOverlappingVertices", "include/geolib/Mesh.h: Mesh::invalidateCache, clear"]}
{"id": "C13", "title": "Mesh concatenation", "statement": "add(mesh) appends the other mesh: the triangle soup of the result is the concatenation of the two soups and index validity is preserved, as long as fewer than 2^32 points are involved (unsigned index arithmetic).", "quantifier": "all pairs of meshes", "why_tests_cant": "all sizes", "anchors": ["src/Mesh.cpp: Mesh::add"]}
{"id": "C14", "title": "Mesh transformation", "statement": "getTransformed(t) applies t to every point and keeps the triangle list; transforming twice equals transforming by the composed transform; rigid transforms keep triangle shapes.", "quantifier": "all meshes, all transforms", "why_tests_cant": "all sizes and transforms", "anchors": ["src/Mesh.cpp: Mesh::getTransformed"]}
{"id": "C15", "title": "Vertex filtering", "statement": "filterOverlappingVertices keeps the number and order of triangles, moves every triangle corner to the first earlier point with the same millimetre key (hence by less than 1 mm per axis away from zero, less than 2 mm in the zero cell), leaves only points with pairwise different keys, and is idempotent; it is undefined behaviour when a coordinate times 1000 does not fit an int or a triangle index is out of range.", "quantifier": "all meshes", "why_tests_cant": "all sizes, all coordinate patterns", "anchors": ["src/Mesh.cpp: Mesh::filterOverlappingVertices, CompareVec3i"]}
{"id": "C16", "title": "Maximum radius", "statement": "getMaxRadius is the largest distance of a mesh point from the origin: it bounds every point (and every point of every triangle) and is attained; it is 0 for an empty mesh.", "quantifier": "all meshes", "why_tests_cant": "all sizes", "anchors": ["src/Mesh.cpp: Mesh::getMaxRadius, getSquaredMaxRadius"]}
{"id": "C17", "title": "Triangle normals and area", "statement": "getTriangleNormal of a non-degenerate triangle is a unit vector orthogonal to both edges, pointing to the side from which the vertices appear clockwise; triangleArea is half the parallelogram area and zero exactly for collinear points.", "quantifier": "all triangles", "why_tests_cant": "continuum", "anchors": ["src/Mesh.cpp: Mesh::getTriangleNormal", "src/Triangle.cpp: triangleArea, Triangle::area"]}
{"id": "C18", "title": "Serialisation round trip", "statement": "Writing any shape whose mesh has fewer than 2^31 points and triangles and reading the bytes back gives a shape with bit-identical points and identical triangles, whatever follows in the stream, and consumes exactly the bytes written.", "quantifier": "all meshes, all bit patterns of coordinates (NaN payloads included), all trailing streams", "why_tests_cant": "all contents", "anchors": ["src/Shape.cpp: Shape::write, Shape::read", "src/serialization.cpp: serialization::serialize, deserialize"]}
{"id": "C19", "title": "Deserialisation dispatch", "statement": "deserialize on a stream written by serialize calls the reader registered for the type tag.", "quantifier": "all registration histories and all memory contents behind the 8-byte tag buffer", "why_tests_cant": "the tag buffer is not NUL-terminated, so the outcome depends on adjacent memory, which a test cannot enumerate", "anchors": ["src/serialization.cpp: serialization::deserialize, registerDeserializer", "src/Shape.cpp: Shape::TYPE"]}
{"id": "C20", "title": "Truncated files are not silently accepted", "statement": "If a serialised file is cut at any byte (crash while writing), reading reports an error instead of producing a shape with invented data; the same for a file that cannot be opened at all.", "quantifier": "every cut position of every serialised mesh, and unreadable files", "why_tests_cant": "every crash point of every file", "anchors": ["src/Shape.cpp: Shape::read", "src/serialization.cpp: fromFile, toFile"]}
{"id": "C21", "title": "Read yields index-valid meshes", "statement": "A mesh obtained by reading a stream only contains triangles that refer to existing points.", "quantifier": "all input byte streams", "why_tests_cant": "arbitrary input", "anchors": ["src/Shape.cpp: Shape::read"]}
{"id": "C22", "title": "Box containment", "statement": "Box::contains(p) holds exactly when every coordinate of p is between the box's minimum and maximum, bounds included.", "quantifier": "all boxes and points, every double including NaN and infinities", "why_tests_cant": "continuum / all bit patterns", "anchors": ["src/Box.cpp: Box::contains"]}
{"id": "C23", "title": "Ray-box intersection", "statement": "For a ray none of whose normalised direction components is below 1e-9 in magnitude, Box::intersect(ray,t0,t1) returns true exactly when some point origin + t*direction with t0<t<t1 lies in the box, and then sets distance to the smallest ray parameter at which the ray is in the box.", "quantifier": "all rays, boxes and limits t0<t1 (exact arithmetic)", "why_tests_cant": "continuum", "anchors": ["src/Box.cpp: Box::intersect(Ray)", "src/Ray.cpp: Ray::Ray, calculateInvDirection"]}
{"id": "C24", "title": "Axis-parallel rays", "statement": "Box::intersect(ray,...) is also exact for rays parallel to a coordinate plane (a zero direction component).", "quantifier": "all rays with a direction component below 1e-9", "why_tests_cant": "the affected rays have measure zero so random tests miss them", "anchors": ["src/Box.cpp: Box::intersect(Ray)", "src/Ray.cpp: calculateInvDirection"]}
{"id": "C25", "title": "Box-box intersection", "statement": "Box::intersect(Box) holds exactly when the two axis-aligned boxes share a point.", "quantifier": "all pairs of boxes with min<=max", "why_tests_cant": "continuum", "anchors": ["src/Box.cpp: Box::intersect(Box)"]}
{"id": "C26", "title": "Sphere-box intersection", "statement": "Box::intersect(p,radius) holds exactly when the closed ball of that radius around p shares a point with the box (radius<=0: exactly when p is in the box).", "quantifier": "all boxes with min<=max, all centres and radii", "why_tests_cant": "continuum", "anchors": ["src/Box.cpp: Box::intersect(Vector3,double)"]}
{"id": "C27", "title": "Box enclose", "statement": "After b.enclose(box,pose) b contains everything it contained before and every pose-transformed point of box, and is the smallest axis-aligned box that does, for every history of enclose calls.", "quantifier": "all boxes, all affine poses, all histories", "why_tests_cant": "unbounded histories, continuum", "anchors": ["src/Box.cpp: Box::enclose, generate_mesh_"]}
{"id": "C28", "title": "Box mesh follows the bounds", "statement": "The mesh of a Box is the closed, outward oriented 12-triangle surface of exactly its current bounds, after any history of enclose calls.", "quantifier": "all boxes, all histories", "why_tests_cant": "histories", "anchors": ["src/Box.cpp: generate_mesh_, enclose"]}
{"id": "C29", "title": "Box maximum radius", "statement": "Box::getMaxRadius is the largest distance from the origin to a point of the box.", "quantifier": "all boxes", "why_tests_cant": "continuum", "anchors": ["src/Box.cpp: Box::getMaxRadius", "include/geolib/Shape.h: Shape::getMaxRadius"]}
{"id": "C30", "title": "Shape bounding box", "statement": "Shape::getBoundingBox contains every mesh point for every mesh, and is the smallest such box when the mesh is non-empty and all coordinates are within [-1e9,1e9].", "quantifier": "all meshes, all finite doubles", "why_tests_cant": "all sizes and values", "anchors": ["src/Shape.cpp: Shape::getBoundingBox"]}
{"id": "C31", "title": "Bounding box cache coherence", "statement": "Whatever sequence of setMesh/getMesh/getBoundingBox calls is made on a plain shape, getBoundingBox is the bounding box of the current mesh.", "quantifier": "all call histories", "why_tests_cant": "histories", "anchors": ["src/Shape.cpp: getBoundingBox, setMesh"]}
{"id": "C32", "title": "Octree bounding box cache coherence", "statement": "getBoundingBox of an octree reflects the points currently stored, whatever adds and queries happened before.", "quantifier": "all call histories", "why_tests_cant": "histories", "anchors": ["src/Octree.cpp: Octree::add, getMesh", "src/Shape.cpp: getBoundingBox"]}
{"id": "C33", "title": "Sphere-shape intersection", "statement": "Shape::intersect(p,r) with r>0 holds only if the ball touches the surface (within a 1e-9 relative tolerance) or the point is inside, and holds whenever the ball touches a triangle.", "quantifier": "all meshes, centres, radii", "why_tests_cant": "continuum", "anchors": ["src/Shape.cpp: Shape::intersect(Vector3,double), checkLinesegment"]}
{"id": "C34", "title": "Segment-triangle counting in Shape::contains", "statement": "For a query point in general position every triangle contributes +1, -1 or 0 according to whether and in which direction the segment from the point to the outside point crosses it, and contains() is true exactly when these contributions sum to 1 (or the point lies on a triangle).", "quantifier": "all meshes and query points in general position", "why_tests_cant": "continuum", "anchors": ["src/Shape.cpp: Shape::contains, sideProduct"]}
{"id": "C35", "title": "Shape::contains never accepts outside points", "statement": "contains(p) is false for points outside a closed mesh, in particular outside its bounding box.", "quantifier": "all closed meshes and all points", "why_tests_cant": "special positions have measure zero", "anchors": ["src/Shape.cpp: Shape::contains, compute2DIntersection"]}
{"id": "C36", "title": "Composite containment is union", "statement": "A composite built from boxes by any sequence of addShape calls with rigid poses contains p exactly when some child contains the inverse-transformed p.", "quantifier": "all build histories, poses and points", "why_tests_cant": "histories and continuum", "anchors": ["src/CompositeShape.cpp: CompositeShape::addShape, contains"]}
{"id": "C37", "title": "Composite ray intersection is nearest hit", "statement": "A composite of boxes is hit exactly when some child is hit, and the reported distance is the minimum over the hit children (rays with no near-zero direction component in any frame involved).", "quantifier": "all build histories, rays and limits", "why_tests_cant": "histories and continuum", "anchors": ["src/CompositeShape.cpp: CompositeShape::intersect(Ray)"]}
{"id": "C38", "title": "Composite sphere intersection is union", "statement": "The ball test on a composite of boxes holds exactly when it holds for some child.", "quantifier": "all build histories, centres and radii", "why_tests_cant": "histories and continuum", "anchors": ["src/CompositeShape.cpp: CompositeShape::intersect(Vector3,double)"]}
{"id": "C39", "title": "Composite bookkeeping", "statement": "After any sequence of addShape calls the composite's mesh is the concatenation of the transformed child meshes, its bounding box is the tight box of the transformed triangle corners (within 1e10) and getMaxRadius the largest distance of a corner.", "quantifier": "all build histories", "why_tests_cant": "histories", "anchors": ["src/CompositeShape.cpp: addShape, getBoundingBox, getMaxRadius"]}
{"id": "C40", "title": "Octree resolution", "statement": "For a positive requested resolution setResolution terminates and returns the largest size/2^k not above the request; construction and later changes obey the same rule.", "quantifier": "all sizes and positive resolutions", "why_tests_cant": "continuum; termination", "anchors": ["src/Octree.cpp: Octree::setResolution"]}
{"id": "C41", "title": "Octree stores what was added", "statement": "After any sequence of add/clear at a fixed resolution (at least 1e-10, the tolerance of add) getCubes lists exactly one cube of side resolution per distinct grid cell added since the last clear, each cube is grid aligned and inside the octree, and every added in-range point lies in a listed cube. getMaxRadius is the size given to the constructor and exceeds the distance from the origin of every point of every listed cube.", "quantifier": "all histories, all in-range points", "why_tests_cant": "unbounded histories", "anchors": ["src/Octree.cpp: add, clear, getCubes", "src/OctreeNode.cpp: add, getCubes"]}
{"id": "C42", "title": "Octree membership", "statement": "contains(p) is true after add(p) and, generally, exactly for points in an occupied cell.", "quantifier": "all histories and points", "why_tests_cant": "histories, deep trees", "anchors": ["src/OctreeNode.cpp: contains", "src/Octree.cpp: contains"]}
{"id": "C43", "title": "Octree-box intersection", "statement": "intersect(box) holds exactly when the box overlaps an occupied cell (cells half-open towards the lower side, as in add).", "quantifier": "all histories and boxes", "why_tests_cant": "unbounded histories", "anchors": ["src/OctreeNode.cpp: intersect(Box)", "src/Octree.cpp: intersect(Box)"]}
{"id": "C44", "title": "Octree ray intersection", "statement": "intersect(ray,t0,t1,distance) terminates, returns true only if the ray passes through an occupied cell between t0 and t1, and then sets distance to the entry distance.", "quantifier": "all octrees and rays", "why_tests_cant": "continuum; termination; deep trees", "anchors": ["src/OctreeNode.cpp: intersect(Ray)", "src/Octree.cpp: intersect(Ray)"]}
{"id": "C45", "title": "Octree ray tracing frame condition", "statement": "raytrace only frees cells that the ray passes through and otherwise changes nothing except adding the end point.", "quantifier": "all octrees and rays", "why_tests_cant": "continuum", "anchors": ["src/OctreeNode.cpp: raytrace", "src/Octree.cpp: raytrace"]}
{"id": "C46", "title": "Octree copies are independent", "statement": "A copy-constructed octree has the same cubes and later changes to one do not affect the other; the reported emptiness and mesh follow the stored points.", "quantifier": "all histories on two octrees", "why_tests_cant": "histories and aliasing", "anchors": ["src/Octree.cpp: Octree::Octree(const Octree&), clone, getMesh", "include/geolib/Octree.h: mesh_", "include/geolib/Shape.h: empty"]}
{"id": "C47", "title": "Height map ray hit", "statement": "A ray (no near-zero direction component) hits a height map built by fromGrid exactly when it hits the column of some grid cell with positive height.", "quantifier": "all grids (any size), resolutions > 0, rays", "why_tests_cant": "all sizes and rays", "anchors": ["src/HeightMap.cpp: fromGrid, createQuadTree", "src/HeightMapNode.cpp: intersect"]}
{"id": "C48", "title": "Height map nearest hit", "statement": "The distance reported for a height map is that of the nearest hit column.", "quantifier": "all grids and rays", "why_tests_cant": "continuum", "anchors": ["src/HeightMapNode.cpp: intersect"]}
{"id": "C49", "title": "Height map top faces", "statement": "For every grid cell with positive height the generated mesh contains a top rectangle at that height (within 1e-10) covering the cell, every top rectangle only covers cells of that height, and no cell is covered twice.", "quantifier": "all grids", "why_tests_cant": "all sizes and height patterns", "anchors": ["src/HeightMap.cpp: fromGrid"]}
{"id": "C50", "title": "Laser beam table", "statement": "After any history of setNumBeams/setAngleLimits ending in a valid configuration the beams are num_beams unit directions at angles a_min + i*increment, the last one at a_max.", "quantifier": "all setter histories", "why_tests_cant": "histories", "anchors": ["src/sensors/LaserRangeFinder.cpp: setAngleLimits, setNumBeams, calculateRays"]}
{"id": "C51", "title": "Beam lookup", "statement": "getAngleUpperIndex(angle) is the index of the first beam with a higher angle, clamped to [0,num_beams].", "quantifier": "all angles and configurations", "why_tests_cant": "continuum", "anchors": ["src/sensors/LaserRangeFinder.cpp: getAngleUpperIndex, getAngleUpperIndexRaw", "include/geolib/sensors/LaserRangeFinder.h: getAngleUpperIndex doc"]}
{"id": "C52", "title": "Nearest return wins", "statement": "Whatever points are rendered in whatever order, each beam finally holds the smallest positive range rendered to it or its initial non-zero value, and beams never rendered to keep their value.", "quantifier": "all render sequences and orders, every double", "why_tests_cant": "all orders", "anchors": ["src/sensors/LaserRangeFinder.cpp: RenderResult::renderPoint"]}
{"id": "C53", "title": "Rendering a line segment", "statement": "renderLine on a segment spanning less than half a circle in front of the sensor sets exactly the beams whose angle lies in (angle(p1),angle(p2)] and to the exact distance at which the beam meets the segment; culled and out-of-range segments change nothing.", "quantifier": "all segments and configurations", "why_tests_cant": "continuum", "anchors": ["src/sensors/LaserRangeFinder.cpp: RenderResult::renderLine"]}
{"id": "C54", "title": "Range limit", "statement": "A segment is skipped because of the maximum range only if every point of it is further away than range_max; range_max = 0 means unlimited for every rendering entry point.", "quantifier": "all segments, shapes, poses", "why_tests_cant": "continuum", "anchors": ["src/sensors/LaserRangeFinder.cpp: renderLine, render"]}
{"id": "C55", "title": "Slicing triangles with the laser plane", "statement": "render intersects every triangle that crosses the laser plane in exactly the segment it shares with the plane, with an orientation that depends only on the triangle's normal; triangles not crossing contribute nothing.", "quantifier": "all triangles and poses", "why_tests_cant": "all vertex sign patterns, continuum", "anchors": ["src/sensors/LaserRangeFinder.cpp: render"]}
{"id": "C56", "title": "Camera projection round trip", "statement": "project3Dto2D(project2Dto3D(x,y)*depth) = (x,y) for every pixel and every positive depth.", "quantifier": "all pixels, depths, camera parameters", "why_tests_cant": "continuum", "anchors": ["include/geolib/sensors/DepthCamera.h: project2Dto3D, project3Dto2D"]}
{"id": "C57", "title": "Z-buffer", "statement": "Whatever pixels are rendered in whatever order with non-zero numbers as depths, the depth image finally holds for each pixel the smallest depth rendered to it (or what was there before, 0 meaning empty), the triangle map names a triangle that produced that depth, and other pixels are untouched.", "quantifier": "all render sequences and orders", "why_tests_cant": "all orders", "anchors": ["src/sensors/DepthCamera.cpp: DefaultRenderResult::renderPixel"]}
{"id": "C58", "title": "Rasterisation stays inside the image", "statement": "Every pixel rendered by the rasteriser is inside the image, and the pointer and triangle maps are large enough for it, also when maps are reused between images of different sizes.", "quantifier": "all triangles, images and reuse histories", "why_tests_cant": "memory safety for all inputs and histories", "anchors": ["src/sensors/DepthCamera.cpp: drawTrianglePart, drawTriangle2D", "include/geolib/sensors/DepthCamera.h: DefaultRenderResult, EMPTY_TRIANGLE_MAP"]}
{"id": "C59", "title": "Near-plane clipping", "statement": "For a triangle with one or two vertices behind the near plane the triangles actually drawn cover exactly the part of the triangle in front of the near plane, keeping the orientation.", "quantifier": "all triangles", "why_tests_cant": "continuum", "anchors": ["src/sensors/DepthCamera.cpp: render"]}
{"id": "C60", "title": "Depth images contain no NaN", "statement": "Rendering finite, in-range triangles never writes NaN into the depth image.", "quantifier": "all triangles", "why_tests_cant": "one special row/column alignment among billions", "anchors": ["src/sensors/DepthCamera.cpp: drawTrianglePart"]}
{"id": "C61", "title": "Vertex sorting and scan-line division", "statement": "sort() orders the three vertices by the chosen coordinate and only permutes them; the scan-line set-up never divides by zero for the split point.", "quantifier": "all vertex triples", "why_tests_cant": "continuum", "anchors": ["src/sensors/DepthCamera.cpp: sort, drawTriangle2D"]}
{"id": "C62", "title": "Generated prisms are closed", "statement": "createConvexPolygon and createCylinder with at least three corners produce index-valid meshes in which every directed edge occurs exactly once and together with its reverse (closed, consistently oriented), for any number of corners.", "quantifier": "all corner counts >= 3", "why_tests_cant": "all sizes", "anchors": ["src/shapes.cpp: createCylinder, createConvexPolygon"]}
{"id": "C63", "title": "Generated prism geometry", "statement": "The cylinder's vertices lie at the given radius and at +-height/2; the signed volume of the prism is positive for clockwise convex input.", "quantifier": "all radii, heights, corner counts", "why_tests_cant": "continuum", "anchors": ["src/shapes.cpp: createCylinder, createConvexPolygon"]}
{"id": "C64", "title": "Degenerate prism input", "statement": "createCylinder/createConvexPolygon terminate for every corner count.", "quantifier": "all corner counts including 0", "why_tests_cant": "termination", "anchors": ["src/shapes.cpp: createCylinder, createConvexPolygon"]}
{"id": "C65", "title": "Mesh import", "statement": "Importing a scene yields an index-valid mesh in which every triangular face of every mesh instance appears once per distinct vertex triple, with each corner being the scaled, pose-transformed vertex with the same millimetre key that came first.", "quantifier": "all scene trees", "why_tests_cant": "all scenes", "anchors": ["src/io/import.cpp: constructMesh"]}
{"id": "C66", "title": "ROS pose round trip", "statement": "Converting a rigid pose to a ROS Pose or Transform message and back gives the same pose; tf2 conversions lose nothing.", "quantifier": "all rigid poses", "why_tests_cant": "continuum", "anchors": ["include/geolib/ros/msg_conversions.h: convert", "include/geolib/ros/tf2_conversions.h: convert"]}
{"id": "C67", "title": "ROS mesh conversion", "statement": "convert(mesh,msg) makes msg describe exactly that mesh.", "quantifier": "all meshes and previous message contents", "why_tests_cant": "message reuse histories", "anchors": ["src/ros/msg_conversions.cpp: convert"]}
{"id": "C68", "title": "Concurrent const queries", "statement": "Two threads calling const queries on one shared mesh or shape get the correct results under every interleaving.", "quantifier": "all interleavings of the member accesses of two or more threads", "why_tests_cant": "schedules", "anchors": ["src/Mesh.cpp: getTriangles, getSquaredMaxRadius", "src/Shape.cpp: getBoundingBox"]}
{"id": "C69", "title": "Camera info round trip", "statement": "A DepthCamera built from parameters reports these parameters and converts to a CameraInfo message from which the same camera is obtained, with identity rectification, no binning and no distortion. A camera taken from a message with binning and a region of interest projects points to the full image's pixel minus the offset, divided by the binning.", "quantifier": "all parameters", "why_tests_cant": "continuum", "anchors": ["src/sensors/DepthCamera.cpp: DepthCamera::DepthCamera", "src/ros/msg_conversions.cpp: convert"]}
{"id": "C70", "title": "Export format selection", "statement": "writeMeshFile derives the export format from the file name extension when no format is given, for every file name.", "quantifier": "all file names", "why_tests_cant": "all strings, including short ones", "anchors": ["src/io/export.cpp: writeMeshFile"]}
{"id": "C71", "title": "Height map surface", "statement": "For a rectangular grid with resolution of at least 1 mm whose different heights differ by at least 2 mm, the mesh of fromGrid is exactly: top rectangles at the heights of the cells they cover, covering every positive cell, and vertical walls that cover every edge between two cells (or a cell and the outside) of different height exactly once, spanning exactly these two heights and facing the lower side.", "quantifier": "all such grids, of any size up to unsigned int vertex counts", "why_tests_cant": "all sizes and height patterns; run merging depends on neighbours", "anchors": ["src/HeightMap.cpp: fromGrid"]}
{"id": "C72", "title": "Laser scan of a mesh", "statement": "Scanning a mesh leaves in every beam the old range or the distance of a true front-side hit of that beam on the mesh, never more than the old range and never more than any front-side hit within range_max.", "quantifier": "all meshes, rigid poses, sensor configurations and previous ranges", "why_tests_cant": "continuum and all meshes", "anchors": ["src/sensors/LaserRangeFinder.cpp: render, renderLine, renderPoint"]}
{"id": "C73", "title": "Number of beams agrees with the stored directions", "statement": "After any history of setter calls getNumBeams() is the number of stored angles and ray directions.", "quantifier": "all setter histories", "why_tests_cant": "histories", "anchors": ["src/sensors/LaserRangeFinder.cpp: setNumBeams, setAngleLimits, calculateRays"]}
{"id": "C74", "title": "Rendered depths lie between the vertex depths", "statement": "Every depth rendered for a triangle lies between the smallest and the largest depth of its corners (after near-plane clipping).", "quantifier": "all triangles and images", "why_tests_cant": "continuum", "anchors": ["src/sensors/DepthCamera.cpp: drawTriangle2D, drawTrianglePart"]}
{"id": "C75", "title": "Rasterised footprint", "statement": "The pixels drawn for a triangle in the image are exactly those the triangle, with its corners moved to the truncated row, has a point in; nothing is drawn for triangles turned away when culling is on.", "quantifier": "all triangles with coordinates in the range of int, all image sizes", "why_tests_cant": "continuum", "anchors": ["src/sensors/DepthCamera.cpp: drawTriangle2D, drawTrianglePart"]}
{"id": "C76", "title": "Perspective-correct projection and culling", "statement": "The image position and inverse depth of the points of a triangle in front of the camera are exactly the points of the image triangle spanned by its projected corners and their inverse depths, and a triangle is culled exactly if its front does not face the centre of projection.", "quantifier": "all triangles and cameras with positive focal lengths", "why_tests_cant": "continuum", "anchors": ["src/sensors/DepthCamera.cpp: render, drawTriangle, drawTriangle2D", "include/geolib/sensors/DepthCamera.h: project3Dto2D"]}
{"id": "C77", "title": "Rendering a mesh", "statement": "Rendering a mesh with visible image coordinates in range completes; every pixel drawn is less than one pixel away from the image of a point of the triangle it is labelled with, in front of the near plane and facing the camera (with culling), and the facing parts of all triangles in front of the near plane are drawn.", "quantifier": "all meshes, rigid poses, cameras and image sizes", "why_tests_cant": "continuum and all meshes", "anchors": ["src/sensors/DepthCamera.cpp: render, drawTriangle2D, drawTrianglePart"]}
{"id": "C78", "title": "Reading a mesh file", "statement": "readMeshFile returns no shape for a file the importer cannot read, throws for file names shorter than three characters, ignores the node transformations exactly for names ending in 3ds, and for names ending in dae drops rotation and translation of the root node but keeps its scale.", "quantifier": "all file names and scenes", "why_tests_cant": "all scene graphs and strings", "anchors": ["src/io/import.cpp: readMeshFile, constructMesh"]}
{"id": "C79", "title": "Export then import", "statement": "A mesh that is exported and read back has the same vertices and triangles, with the vertices of one millimetre cell merged into the first one and duplicate triangles dropped; nothing changes if no two vertices share a cell and no triangle occurs twice.", "quantifier": "all meshes", "why_tests_cant": "all meshes", "anchors": ["src/io/export.cpp: writeMeshFile", "src/io/import.cpp: readMeshFile, constructMesh"]}
{"id": "C80", "title": "Octrees own their nodes", "statement": "A program that constructs, copies, changes, queries and destroys any number of octrees in any order never touches freed memory, frees every node exactly once, and gets the answers it would get if every octree were an independent value: no call on one octree changes what another one answers.", "quantifier": "all programs over any number of octrees, every scalar type", "why_tests_cant": "memory safety and independence for all call sequences", "anchors": ["src/OctreeNode.cpp: OctreeNode, ~OctreeNode, addPoint", "src/Octree.cpp: Octree, ~Octree, clear, clone"]}
{"id": "C81", "title": "Assigning octrees and height maps", "statement": "After a = b for two octrees or two height maps, a is a copy of b of its own, and both can be destroyed.", "quantifier": "all programs before the assignment, both destruction orders", "why_tests_cant": "all histories", "anchors": ["include/geolib/Octree.h: class Octree (implicit copy assignment)", "include/geolib/HeightMap.h: class HeightMap (implicit copy assignment)"]}
{"id": "C82", "title": "Height maps release their memory", "statement": "A program that constructs, copies, queries and destroys height maps never touches freed memory, copies are independent of their originals, and when all maps are destroyed all their nodes are released.", "quantifier": "all programs over any number of height maps", "why_tests_cant": "histories and tree shapes", "anchors": ["src/HeightMapNode.cpp: HeightMapNode, ~HeightMapNode", "src/HeightMap.cpp: HeightMap, ~HeightMap"]}
{"id": "C83", "title": "Height image to mesh file", "statement": "height_image_to_file writes to the named file exactly the block surface of the image: the pixel in row y and column x becomes the cell (x, rows-1-y) of height block_height*(255-v)/255, white pixels become nothing, and everything is shifted by the given origin; wrong argument counts and unreadable images give exit code 1 and no file.", "quantifier": "all images, all documented command lines, all resolutions of at least 1 mm", "why_tests_cant": "all images; a flipped axis or an off-by-one shows only on asymmetric ones", "anchors": ["tools/height_image_to_file.cpp: main", "src/HeightMap.cpp: fromGrid"]}
{"id": "C84", "title": "Command line of height_image_to_shape", "statement": "height_image_to_shape INPUT_IMAGE RESOLUTION [BLOCK_HEIGHT] [ORIGIN_X ORIGIN_Y] uses every documented argument, and both conversion tools report success only if the file was written.", "quantifier": "all documented command lines", "why_tests_cant": "all argument combinations and failing file systems", "anchors": ["tools/height_image_to_shape.cpp: main", "tools/height_image_to_file.cpp: main"]}
{"id": "C85", "title": "Rounding of transforms", "statement": "In double precision, applying, composing and inverting transforms gives results within an explicit small multiple of 2^-53 times the size of the numbers involved, and transforming a point there and back by a nearly orthonormal transform returns it up to such an error; nothing overflows.", "quantifier": "all finite transforms and points below 2^1013", "why_tests_cant": "rounding errors over the whole range of doubles, cancellation", "anchors": ["include/geolib/math_types.h: Transform3T::operator*, inverse", "include/geolib/math_types.h: Mat3T::operator*"]}
{"id": "C86", "title": "Rounding of rotations from quaternions", "statement": "For every quaternion of doubles, normalized or not, whose squared length lies between 2^-900 and 2^900, setRotation gives a finite matrix within 64*2^-53 of the exact rotation v -> q v q^-1, so it is orthonormal up to 448*2^-53 and a pose made from it can be inverted up to 1500*2^-53 times the coordinates; length() and normalized() are as accurate for vectors and quaternions of such length. Any nonzero quaternion gives a finite matrix.", "quantifier": "all quaternions and vectors of doubles of that length", "why_tests_cant": "rounding errors over the whole range of doubles", "anchors": ["include/geolib/math_types.h: Mat3T::setRotation, Vec3T::length, Vec3T::normalized, QuaternionT::normalized"]}
{"id": "C87", "title": "Points inside closed meshes", "statement": "For a closed convex mesh whose triangles face outwards and do not overlap, contains(p) is true exactly for the points strictly behind all faces. For any closed mesh, convex or not, the crossing count that contains() compares with one changes along a straight line by the signed number of triangles the line crosses. Real arithmetic, points in general position with respect to the mesh and the outside point.", "quantifier": "all closed meshes, all points in general position", "why_tests_cant": "unbounded meshes, real geometry", "anchors": ["src/Shape.cpp: Shape::contains, Shape::check_linesegment"]}
{"id": "C88", "title": "Points inside cylinders and convex polygons", "statement": "contains(p) on a shape from createConvexPolygon with a strictly convex clockwise outline is true exactly for the points of the prism: between the two heights and to the right of every side. On a shape from createCylinder it is true for points closer to the axis than radius*cos(pi/n) and between the caps, and false beyond the radius or beyond the caps. Real arithmetic, points in general position.", "quantifier": "all outlines, radii, heights and corner counts, all points in general position", "why_tests_cant": "unbounded corner counts, real geometry", "anchors": ["src/shapes.cpp: createCylinder, createConvexPolygon", "src/Shape.cpp: Shape::contains"]}
{"id": "C89", "title": "Renderings depend on the relative pose", "statement": "The laser scan and the depth image of an object depend only on its pose in the sensor's frame: rendering with a sensor pose and an object pose gives what rendering with the object's pose in the sensor's frame gives, and moving sensor and object together changes nothing.", "quantifier": "all meshes, sensors and rigid poses (real arithmetic)", "why_tests_cant": "continuum of poses", "anchors": ["src/sensors/LaserRangeFinder.cpp: LaserRangeFinder::render", "src/sensors/DepthCamera.cpp: DepthCamera::rasterize"]}
{"id": "C90", "title": "The two matrix types agree", "statement": "The array-based Vector3, Matrix3x3 and Transform of matrix.h compute exactly what the templates of math_types.h compute: sums, products, lengths, normalization, roll-pitch-yaw matrices bit for bit for every scalar type, inverses for reals and doubles including signed zeros, infinities and NaN; getRow is defined exactly for the three rows.", "quantifier": "all vectors, matrices and transforms", "why_tests_cant": "every bit pattern of doubles", "anchors": ["include/geolib/matrix.h: Vector3, Matrix3x3, Transform", "include/geolib/math_types.h: Vec3T, Mat3T, Transform3T"]}
{"id": "C91", "title": "Octrees on doubles", "statement": "In double precision, for sides from 1 nm to 500 km and resolutions of at least 1 nm, an octree behaves as on real numbers up to one rounding of each added or queried point (2^-53 times the side): resolutions are exactly the side over a power of two, the descent never rounds, every added point lies in a listed cube and every listed cube holds an added point up to 65*2^-53 times the side, cube corners are exact when the side has few significant bits, point and box queries answer for points and boxes displaced by at most that rounding, and no call loops.", "quantifier": "all sides, resolutions and histories of adds, clears, resolution changes, copies and mesh queries on doubles", "why_tests_cant": "rounding behaviour over all doubles, unbounded histories", "anchors": ["src/Octree.cpp: add, setResolution, getCubes, contains, intersect", "src/OctreeNode.cpp: add, getCubes, contains, intersect"]}
{"id": "C92", "title": "Stopping a rendering", "statement": "A RenderResult whose renderPixel calls stop() is handed the remaining pixels of the triangle being drawn and no pixel of a later triangle; the calls it gets are the first calls of the rendering that is not stopped, and all of them if it never calls stop().", "quantifier": "all RenderResult subclasses, meshes, poses and cameras, every scalar type", "why_tests_cant": "arbitrary callbacks with state and unbounded meshes", "anchors": ["src/sensors/DepthCamera.cpp: render", "include/geolib/sensors/DepthCamera.h: RenderResult::stop, renderPixel"]}
{"id": "C93", "title": "showKinect shows the shape from all sides", "statement": "visualization::showKinect shows one image for each of the angles 0, 0.05, 0.1, ... below 6.283 (126 images) or stops after the first image during which a key is pressed, and the images show the shape.", "quantifier": "all shapes, canvas sizes and key sequences", "why_tests_cant": "all shapes; windows cannot be inspected by tests", "anchors": ["src/visualization.cpp: showKinect"]}
{"id": "C94", "title": "show displays a shape file", "statement": "show FILE exits with 1 for a wrong number of arguments or a file that neither reader accepts; otherwise it shows one image for each of the angles 0, 0.07, 0.14, ... until q is pressed and exits with 0. Every image is completed, the whole shape is in view at every angle, and pixels other than black lie within one pixel of a triangle facing the camera.", "quantifier": "all files, shapes, angles and key sequences (real arithmetic)", "why_tests_cant": "continuum of angles and all shapes", "anchors": ["tools/show.cpp: main"]}
{"id": "C95", "title": "Assignments, comparisons and element access of vectors, matrices and transforms", "statement": "Assigning or combining objects in place (=, +=, -=, *=, /=, normalize, setOrigin, setBasis) leaves in the object the result computed from the values before the statement, also when both operands are the same object or the scalar is a component of it, and changes nothing else. A copy compares equal to its original exactly if it contains no NaN. m(i,j), getRow(i) and getColumn(j) address the same element; the only accesses that are not undefined are those inside the array, so m(0,3) is silently m(1,0). Matrix and quaternion sums, differences and multiples act linearly.", "quantifier": "all values and all placements of the operands in memory, every scalar type; comparisons on doubles and reals, linearity on reals", "why_tests_cant": "aliasing and all values, including NaN", "anchors": ["include/geolib/math_types.h: Vec2T, Vec3T, Mat2T, Mat3T, QuaternionT, Transform2T, Transform3T"]}
{"id": "C96", "title": "From ranges to points", "statement": "For a configured laser range finder, rangesToPoints gives for n ranges n points, the i-th at the given range along beam i in the scanner's plane, and nothing if the number of ranges does not match; rangeToPoint and getRayDirection agree with it, and looking up the angle of such a point gives the index of its beam. The points of a rendered scan are the scanner itself or lie on a front face of the rendered mesh. polarTo2D converts to Cartesian coordinates and polarTo3D rotates them by the pose without moving them. min_i and max_i of a rendering enclose all beams it changed.", "quantifier": "all configurations, ranges, meshes and rigid poses (real arithmetic); the last for every scalar type", "why_tests_cant": "continuum of angles, all meshes", "anchors": ["src/sensors/LaserRangeFinder.cpp: rangesToPoints, rangeToPoint, getRayDirection, polarTo2D, polarTo3D, RenderResult"]}
{"id": "C97", "title": "Shapes through their common interface", "statement": "In any program over plain shapes, boxes and composites that sets meshes, encloses boxes, asks for bounding boxes and adds shapes to composites: the number of triangles of each shape is that of the last mesh set on it, 12 plus 12 for each enclose for a box, and the sum over the shapes added (as they were then) for a composite; empty() is true exactly if it is zero; no call changes another shape; setMesh on a box or composite throws and changes nothing. Ray tests throw on plain shapes, return on boxes and composites without plain shapes inside, and throw on a composite to which a plain shape was added exactly for the rays that hit its bounding box. The bounding box of a box is the smallest one around its mesh.", "quantifier": "all programs over any number of shapes, every scalar type; bounding boxes on reals", "why_tests_cant": "unbounded programs and nesting", "anchors": ["src/Shape.cpp: setMesh, getMesh, intersect, getBoundingBox, empty", "src/Box.cpp: setMesh, getBoundingBox, enclose", "src/CompositeShape.cpp: addShape, setMesh, intersect"]}
{"id": "C98", "title": "Ray-box test in floating point", "statement": "In the arithmetic of the code (doubles, slab parameters rounded to floats) Box::intersect(ray,...) gives exactly the answer and entry distance of an exact test on a box whose faces are displaced by at most 2^-23 of their distance to the origin of the ray, so a ray that passes the box grown by that margin is never reported as a hit and a ray through the box shrunk by it is never missed.", "quantifier": "all boxes and rays with coordinates below 1e20 and no direction component below 1e-9, all ranges", "why_tests_cant": "rounding over the whole range of doubles and floats", "anchors": ["src/Box.cpp: Box::intersect(Ray)", "src/Ray.cpp: Ray, calculateInvDirection"]}
{"id": "C99", "title": "Point containment and radii in floating point", "statement": "In double precision getMaxRadius and getSquaredMaxRadius are within 18*2^-53 and 16*2^-53 of the exact values (relative), and contains() gives the answer of the exact computation for every point that is not within rounding distance of a decision: outside the thin shell 100*2^-53 around the bounding sphere, and with orientations, heights and areas beyond the code's tolerances by a stated multiple of 2^-53 times powers of the radius. In a closed convex mesh it decides whether the point is strictly behind all faces.", "quantifier": "all meshes of finite doubles built by any operations with radius between 2^-100 and 2^99, all points up to 2^100", "why_tests_cant": "rounding over all meshes and points", "anchors": ["src/Shape.cpp: contains", "src/Mesh.cpp: getMaxRadius, getSquaredMaxRadius"]}
{"id": "C100", "title": "Segments through edges and corners", "statement": "contains(p) connects p with a point outside the mesh; when that segment passes exactly through edges shared by two triangles, the answer is the one of every sufficiently close segment in general position: an edge between two triangles facing the same way counts as one crossing, an edge seen from the side counts as none. So points outside a convex set around a closed mesh are not contained, points strictly inside a closed convex mesh are contained (also when the segment leaves through a corner), and away from corners contains() decides which of the two holds.", "quantifier": "all closed meshes with fewer than 2^32 points, all points off the surface whose segment meets each edge line exactly or stays clear of it by the tolerance of the code (real arithmetic)", "why_tests_cant": "exact hits of edges have measure zero and depend on the hit maps over unbounded triangle lists", "anchors": ["src/Shape.cpp: contains"]}
{"id": "C101", "title": "Ball-box test in floating point", "statement": "In double precision Box::intersect(p, radius) with a positive radius returns true only if some point of the box has a squared distance to p of at most radius^2*(1+10*2^-53), and returns true whenever some point of the box has a squared distance of at most radius^2*(1-10*2^-53) (up to a few units of the smallest subnormal); with a radius of zero or less it decides containment of p exactly.", "quantifier": "all boxes with ordered corners, points and radii of finite doubles up to 2^400", "why_tests_cant": "rounding over all doubles, including boxes a few units in the last place thin", "anchors": ["src/Box.cpp: intersect(Vector3, double), contains, getCenter"]}
{"id": "C102", "title": "Pixels on doubles", "statement": "In double precision, for cameras without translation, project3Dto2D(project2Dto3D(x,y)*depth) differs from (x,y) by at most 7*2^-53 times the coordinates plus the optical centre, so its nearest integers are the pixel; project3Dto2D<double,int> gives back the pixel.", "quantifier": "all int pixels, depths and focal lengths between 2^-100 and 2^100, optical centres up to 2^40", "why_tests_cant": "rounding over all cameras, depths and pixels", "anchors": ["include/geolib/sensors/DepthCamera.h: project3Dto2D, project2Dto3D"]}
{"id": "C103", "title": "Vertex merging on doubles", "statement": "In double precision filterOverlappingVertices and the mesh import give a coordinate the number of its whole millimetres as key, or the next millimetre away from zero when the product with 1000 rounds onto it; every mesh of finite doubles within 2147 km can be filtered; and a triangle corner is replaced by a point less than 1 mm + 1 nm away per axis (2 mm + 1 nm in the cell around zero; for the import after scaling).", "quantifier": "all vertices, meshes and scales of doubles", "why_tests_cant": "rounding over all doubles", "anchors": ["src/Mesh.cpp: filterOverlappingVertices", "src/io/import.cpp: constructMesh"]}
{"id": "C104", "title": "Quaternions of matrices on doubles", "statement": "In double precision getRotation gives, for a matrix within e of a rotation, a finite quaternion within 6 e + 36 u of one of the two unit quaternions of that rotation, whichever branch the computed trace and diagonal choose; quaternion to matrix to quaternion gives the same unit quaternion up to sign and 420 u, normalized or not; matrix to quaternion to matrix gives the rotation up to 90 e + 604 u; and after n conversions of a pose to a message and back the position is unchanged and the rotation has moved by at most 6500 n u.", "quantifier": "all double matrices near a rotation, all double quaternions of sane length, any number of conversions", "why_tests_cant": "rounding over all doubles and the branch taken at the borders; any number of conversions", "anchors": ["include/geolib/math_types.h: Mat3T::getRotation, Mat3T::setRotation", "include/geolib/ros/msg_conversions.h: convert"]}
{"id": "C105", "title": "Rays on height maps on doubles", "statement": "In the arithmetic of the code a ray hits a height map exactly when the ray test reports a hit for the box of the column of some cell of positive height, for every direction, and the reported distance is the one reported for such a column: rounding makes the quad tree neither lose nor invent a hit. A box containing another box is hit whenever the inner box is, no later. Rays passing a column at least e inside its faces are reported, and a reported ray passes a column of the map within e at the reported distance, with e about 2.5e-7 of the extent of the scene.", "quantifier": "all double grids of any size, resolutions, ray origins, directions and limits", "why_tests_cant": "rounding over all doubles on trees of any depth", "anchors": ["src/HeightMapNode.cpp: HeightMapNode::intersect", "src/HeightMap.cpp: HeightMap::intersect, HeightMap::createQuadTree"]}
{"id": "C106", "title": "Invalid depths only in the first column", "statement": "Whatever the mesh, the pose and the camera parameters (NaN and infinite values included), if rendering returns then every pixel with a NaN depth that the camera hands out is in the first column of the image, so rasterize leaves all other columns free of NaN. A row of a triangle yields a NaN exactly when the row is a single point strictly between -1 and 0 with equal inverse depths at its ends; every triangle in view that spans several rows and whose topmost vertex is projected less than one pixel left of a row of the image yields one.", "quantifier": "all double meshes, poses, cameras, images of fewer than 2^24 - 1 rows, and all classes derived from RenderResult", "why_tests_cant": "needs all float rows, including overflowing slopes", "anchors": ["src/sensors/DepthCamera.cpp: drawTrianglePart, drawTriangle2D, render, rasterize"]}
{"id": "C107", "title": "Integer vectors and default transforms", "statement": "Operations on int vectors, matrices and transforms are the exact integer ones whenever they do not overflow, and they never overflow if all components are at most 26754 in absolute value, which is the largest such bound; int transforms that permute and flip axes are inverted exactly. The length of an int vector is the integer part of the exact length and normalising one yields components -1, 0 or 1. Operations on unsigned vectors are the integer ones modulo 2^32 for all values, so composing unsigned transforms and undoing axis permutations always succeeds. A default Transform2 maps every point to the origin; a default Transform3 has an uninitialised rotation, so every point it is applied to becomes indeterminate, as do its products and its inverse, until a rotation is assigned. Constructing from one value fills all components; constructing from an array copies the elements in order and requires 2, 3 or 9 of them.", "quantifier": "all vectors, matrices and transforms with int and unsigned components", "why_tests_cant": "needs all 32-bit values, and uninitialised memory has no stable value to test", "anchors": ["include/geolib/math_types.h: Vec2i, Vec3i, Vec3u, Mat3i, Transform3i, Transform3u, Vec3T::length, Vec3T::normalized, Transform2T(), Transform3T(), Mat3T()"]}
{"id": "C108", "title": "Trigonometry on doubles", "statement": "With a mathematics library whose sines and cosines are within c units of 2^-53 and whose atan2 is within 4c units, and with pi the nearest double, building a rotation from roll, pitch and yaw on doubles gives a finite matrix within (6c+10) units of the exact rotation, orthonormal up to seven times that; points transformed by it are within (18c+56) units of their size of the exact image; reading roll, pitch and yaw back returns the angles with an error inversely proportional to the cosine of the pitch, for angles short of pi and pitches not at the singularity; the planar transform and its angle round trip within 8c units; and every corner of a generated cylinder is within (c+34) units of its size of the corner of the exact regular prism.", "quantifier": "all finite angles, radii, heights and points in double precision, all numbers of corners, and every library meeting the accuracy contract", "why_tests_cant": "tests compare a few angles against the library they run on", "anchors": ["include/geolib/math_types.h: Mat3T::setRPY, Transform3T::getRPY, Transform3T(x,y,z,roll,pitch,yaw), Transform2T::setRotation, Transform2T::rotation; src/shapes.cpp: createCylinder"]}
{"id": "C109", "title": "Laser range finder on doubles", "statement": "With beams at least a microradian apart, limits of at most 8 radians and a mathematics library accurate to c units of 2^-53, every configuration is accepted; after every configuration history beam i is within 9i+48 units of its exact angle (the angle is accumulated, so the error grows with i) and its direction within c+9i+51 units; the beam index of an angle or point that is at least a millionth of an increment off the beams is exactly the first beam above it; a range becomes a point within c+9i+53 units of its size of the exact point; and drawing a segment changes exactly the beams that the exact segment lights, each to the single precision rounding of a distance within (4c+30i+200) units, scaled by the size of the segment over the sine of the incidence angle, of the exact distance, when that is nearer than the stored range.", "quantifier": "all configuration histories, angles, points, ranges and segments in double precision, any number of beams, and every library meeting the accuracy contract", "why_tests_cant": "accumulated rounding depends on the configuration; tests sample a few beams and compare with the library they run on", "anchors": ["src/sensors/LaserRangeFinder.cpp: calculateRays, setAngleLimits, setNumBeams, getAngleUpperIndex, getAngleUpperIndexRaw, rangeToPoint, getRayDirection, RenderResult::renderLine, renderLine"]}
{"id": "C110", "title": "Printed values can be read back", "statement": "If every component prints as a non-empty word without white space, splitting the text printed for a vector, quaternion, matrix, transform or triangle at white space gives exactly its components, in row-major order and with the translation before the rotation, and values whose components print differently print differently; the decimal indices printed for a mesh triangle read back as those indices.", "quantifier": "all values of all printable types, any component printer with the stated property, all indices", "why_tests_cant": "tests compare a few printed strings", "anchors": ["include/geolib/math_types.h: operator<< of Vec2T, Vec3T, Mat2T, Mat3T, QuaternionT, Transform2T, Transform3T; include/geolib/matrix.h: operator<<; src/Triangle.cpp: operator<<; include/geolib/Mesh.h: operator<< of TriangleI"]}
{"id": "C111", "title": "Containment and ball test of composite shapes in double precision", "statement": "For a composite built on doubles by any number of addShape calls with boxes and previously built composites, contains() only accepts points that lie in one of the placed boxes grown by e, and accepts every point of a placed box shrunk by e; the ball test agrees with the exact one up to 2e plus 40 units of roundoff of the overall size.  e is (depth) x (20 times the error of the rotation matrices plus 150 units of roundoff) x (overall size).  Neither test throws, and a radius of zero or less asks for containment.", "quantifier": "all construction histories of any nesting depth with fewer than 2^29 boxes, all poses whose matrices are close to rotations (in particular those set from quaternions of sane length), all finite query points within the overall size, all finite radii", "why_tests_cant": "rounding errors accumulate over the frames, and the bounding box that is tested first is itself computed from rounded corners", "anchors": ["src/CompositeShape.cpp: addShape, contains, intersect(Vector3, double); src/Box.cpp: contains, intersect(Vector3, double); include/geolib/math_types.h: Transform3T::inverse, operator*; src/Mesh.cpp: getTransformed, add"]}
{"id": "C112", "title": "Rotations of integer matrices", "statement": "On int matrices getRotation/getQuaternion never overflows for elements up to 5e8 and returns a quaternion with at most one component that is not zero: the scalar part if the trace is positive, otherwise the component of the largest diagonal element.  Of the integer rotations exactly the identity and the half turns about the axes survive getQuaternion followed by setRotation; for all others (every quarter turn) setRotation divides by zero.  setRotation is exact for quaternions of squared norm 1 or 2, gives the identity for any larger norm, and is undefined for zero.  setRPY with integer angles in (-pi, pi) gives a diagonal matrix of zeros and ones that is a rotation only if all angles are zero; through Transform3i angles below one radian count as zero.  Unsigned matrices return (0, 0, 0, w) for a trace that is not zero modulo 2^32, and are undefined for the trace 2^32 - 1.", "quantifier": "all int matrices with elements up to 5e8 and all unsigned matrices, all int quaternions with components up to 10000, all integer rotations, all angles below 4 in absolute value, all accurate libraries with cos(0) = 1", "why_tests_cant": "the truncation of 0.5 / s, of 2 / d and of sines and cosines hides in implicit conversions, and which rotations survive is a statement about all integer matrices", "anchors": ["include/geolib/math_types.h: Mat3T::getRotation, Mat3T::setRotation, Mat3T::setRPY, Transform2T::setRotation, Transform3T::getQuaternion, Transform3T::setRPY, Mat3i, Mat3u, Transform3i"]}
{"id": "C113", "title": "Triangles in one plane with the outside point", "statement": "When a triangle of the mesh lies in one plane with the query point and the point (1.1 r, 0, 0) that contains() connects it to, the triangle decides alone if the line through both points meets it anywhere: contains() is then true whatever the other triangles, so all points of the triangle are accepted and so are points outside the mesh on the line behind it.  If the line passes by the triangle it has no influence: with the other triangles in general position the answer is given by the signed crossings.", "quantifier": "all meshes and histories of mesh operations, all query points, all triangles with an area in a plane with the line (real arithmetic); for the second part one of the first two corners at least 2e-16 / length away from the line", "why_tests_cant": "exactly coplanar configurations have measure zero and the code takes a separate branch for them", "anchors": ["src/Shape.cpp: Shape::contains, compute2DIntersection, lineLinesegmentIntersection, sideProduct"]}
{"id": "C114", "title": "Rays through composite shapes on doubles", "statement": "In the arithmetic of the code (doubles, slab parameters and limits rounded to floats) a ray test on a composite of boxes in nested poses of any depth reports a hit only if the ray, at the reported distance and before the limit, is within e of a box of the composite; and a box the ray passes e inside its faces within the limits is always reported, at a distance no later than any point e inside any such box, so the reported box is the first one up to e.  e is 1e-6 of the extent of the scene plus one small contribution per level of nesting; neither the test of the bounding boxes nor the order of the children loses a hit.", "quantifier": "all histories of addShape calls on doubles, all depths and numbers of children, all ray origins, directions without components below 2e-9 in any frame, all limits", "why_tests_cant": "rounding over all doubles on trees of any depth", "anchors": ["src/CompositeShape.cpp: CompositeShape::intersect(Ray), CompositeShape::addShape", "src/Box.cpp: Box::intersect(Ray)", "src/Ray.cpp: Ray, calculateInvDirection"]}
{"id": "C115", "title": "Boxes on doubles", "statement": "In double arithmetic enclosing one box by another never loses any of the old box, covers every point of the moved box up to the rounding error e of moving one point, and is the smallest such box up to e; over any history of constructions and enclosing calls the corners stay finite, in order and within the accumulated error of the same history in exact numbers, and when fresh boxes are enclosed one after the other the error does not add up however many there are.  The size has relative error u, is never negative and is zero only if the corners agree; the centre lies exactly inside the box; the radius is the larger of the two corner lengths up to 6 u.", "quantifier": "all histories of constructions and enclosing calls with coordinates below 2^1020, all poses (rotations or not)", "why_tests_cant": "rounding over all doubles and histories of any length", "anchors": ["src/Box.cpp: Box::enclose, getSize, getCenter, getMaxRadius, constructor"]}
{"id": "C116", "title": "Angles of integer transforms", "statement": "Roll, pitch and yaw of an int transform are the directions of the matrix entries within the accuracy of the maths library (the arguments carry no rounding except one square root), and the singular case is chosen exactly when the last row is (negative, 0, 0); the call is undefined exactly when the sum of squares of the last two entries of the last row or a negation overflows.  The angles give every integer rotation back, except three of the four with the x axis turned to z, for which roll and yaw are both reported as 0.  The angle of an int planar transform is truncated to an integer between -3 and 3, so quarter turns read as 1 and -1 radians and the half turn as 3.  For unsigned components nothing is undefined and the pitch is never negative.", "quantifier": "all int and unsigned matrices, all maths libraries meeting the accuracy contract with a constant up to 1000", "why_tests_cant": "2^288 matrices; the answer depends on overflow, truncation and on the signs of zeros", "anchors": ["include/geolib/math_types.h: Transform3T::getRPY, getYaw, Transform2T::rotation with int and unsigned int"]}
{"id": "C117", "title": "Normals, areas and normalised matrices on doubles", "statement": "In double arithmetic the normal of a mesh triangle has length 1 up to 14 u and points in the exact direction up to (30/k + 8) u, and the area has relative error (18/k + 8) u, where k is twice the area divided by the extents of the two sides at the first corner; two equal corners give an area of exactly zero and a normal that is NaN in every component, whereas three different points exactly on a line can have a positive area and a unit normal.  Normalising a matrix, in place or not, gives columns of unit length within 8 u, and recovers a rotation whose columns were scaled and given with relative error e up to 3 e + 8 u.", "quantifier": "all meshes of doubles and all their triangles with coordinates below 2^400 and quality k at least 1e-9; all matrices with columns away from overflow and underflow", "why_tests_cant": "rounding over all doubles; slivers are not found by sampling", "anchors": ["src/Mesh.cpp: getTriangleNormal", "src/Triangle.cpp: triangleArea, Triangle::area", "include/geolib/math_types.h: Vec3T::cross, normalized, Mat3T::normalize, normalized"]}
{"id": "C118", "title": "Scanning meshes on doubles", "statement": "In double arithmetic render of the laser range finder draws, for every triangle and in order, the exact slice (within 33 u times the size of the scene) of a triangle whose corners are within 27 u times that size of the true ones, and nothing when that triangle is on one side of the plane; when the corners are clear of the plane the decision is right and the end points are off by the corner error times distance over height.  The slice does not depend on which corner is listed first, and two triangles that share an edge get bit-identical end points on it, so a closed surface leaves no cracks.  A mesh is skipped only if, up to rounding, it is on one side of the plane or out of range.  Corners a subnormal distance off the plane can move the segment anywhere.", "quantifier": "all meshes of doubles, all poses with rotation entries up to 2, coordinates up to 2^400, all range finders and C libraries", "why_tests_cant": "rounding over all doubles and all sign patterns; any number of triangles", "anchors": ["src/sensors/LaserRangeFinder.cpp: render"]}
{"id": "C119", "title": "Maximum range of laser lines on doubles", "statement": "In double arithmetic a segment that comes within the maximum range (squared distance below its square by 40 u times (size squared plus range squared)) is drawn whole, with bit for bit the ranges that a sensor without a limit would give, so exactly the beams it lights change; a segment that stays out of range by the same margin changes nothing.  The margin is needed: some segments in range are skipped and some out of range are drawn.", "quantifier": "all segments of doubles at least 1e-6 long with coordinates up to 1e6, all maximum ranges up to 1e9, all range finders and C libraries", "why_tests_cant": "rounding over all doubles; the nearest point may be either end or in between", "anchors": ["src/sensors/LaserRangeFinder.cpp: renderLine"]}
{"id": "C120", "title": "Default-constructed matrix.h objects", "statement": "In every program over Vector3, Matrix3x3 and Transform of matrix.h, whatever counts as initialised (written by a constructor, setter or computed from initialised values only) ends with the same value whatever the storage held before.  The only undefined call is getRow outside 0..2.  A default-constructed vector has a defined length exactly when x, y and z have all been set, and each holds the value set last.  A default-constructed Transform whose angles are set gets a defined rotation but its origin can never be set: applying, inverting or multiplying it uses uninitialised numbers, and the result does depend on them.", "quantifier": "all programs of calls on any number of variables, all scalar types, all contents of the uninitialised storage", "why_tests_cant": "a test sees one content of the storage, often zeros", "anchors": ["include/geolib/matrix.h: Vector3, Matrix3x3, Transform"]}
{"id": "C121", "title": "Balls reaching the edges of a mesh, on doubles", "statement": "On doubles, a ball whose squared radius exceeds its squared distance to some point of some edge (or corner) of the mesh by 1000 units of rounding of M^2 + r^2 is reported to intersect, however long, short or degenerate the triangles and their edges are and wherever the triangle stands in the list; a ball whose centre is farther from the origin than the mesh's maximum radius plus its own radius, by 60 units of rounding of M, is reported not to intersect.", "quantifier": "all meshes of finite points with coordinates up to M (1 to 1e6) and a point at least 2^-100 away from the origin, built by any sequence of operations, all finite centres with coordinates up to M, all radii up to 1e6, all points of all edges", "why_tests_cant": "a test takes one ball and one mesh; cancellation in the distance to a line, division by the length of a tiny edge and the rounded maximum radius could each lose a ball elsewhere", "anchors": ["src/Shape.cpp: Shape::intersect(const Vector3&, double), checkLinesegment; src/Mesh.cpp: Mesh::getMaxRadius"]}
{"id": "C122", "title": "Containment and ball queries with NaN", "statement": "On doubles, contains answers false for a point with a NaN coordinate, and a ball whose centre has a NaN coordinate intersects nothing, whatever the radius and the mesh (NaN and infinite points included). A ball query with a NaN radius gives the answer of contains at its centre. Triangles with a NaN corner count for nothing in contains: leaving out some or all of them changes no answer.", "quantifier": "all meshes with valid indices, all points, balls and radii of doubles, NaN and infinities included; all sublists of the triangles with a NaN corner", "why_tests_cant": "a test tries one place for the NaN; every comparison of the algorithm has to fail on the right side", "anchors": ["src/Shape.cpp: Shape::contains, Shape::intersect(const Vector3&, double), sideProduct, checkLinesegment"]}
