#!/usr/bin/env python3
# Source of /verif/properties.jsonl (one entry per property).
import json
P=[]
def p(id,title,statement,quantifier,why,*anchors):
    P.append(dict(id=id,title=title,statement=statement,quantifier=quantifier,why_tests_cant=why,anchors=list(anchors)))

MT="include/geolib/math_types.h"
p("C01","Rigid transform inverse","For every 3D transform whose basis is a rotation, t.inverse()*t and t*t.inverse() are the identity, and t.inverse()*(t*v) = v for every vector v.","all rotation matrices, all translations, all vectors (exact real arithmetic)","infinitely many poses; a test samples a few","%s: Transform3T::inverse, Transform3T::operator*"%MT)
p("C02","Transform composition","Applying a*b to a point equals applying b and then a; composition is associative, identity() is neutral, inverseTimes(b) is inverse()*b; this holds for every transform, rotation or not.","all transforms and points","must hold for all operands","%s: Transform3T::operator*, identity, inverseTimes, Mat3T::operator*"%MT)
p("C03","Roll-pitch-yaw construction","setRPY(r,p,y) always produces a proper rotation (orthonormal, determinant +1), namely yaw about z after pitch about y after roll about x.","all real angle triples","continuum of angles","%s: Mat3T::setRPY, Transform3T::setRPY"%MT)
p("C04","Roll-pitch-yaw extraction","Re-building a pose from the angles returned by getRPY gives the same rotation, and for pitch strictly between -pi/2 and pi/2 (outside the documented 1e-12 singular band) getRPY returns exactly the angles given to setRPY.","all rotation matrices / all angle triples in the principal range","continuum of rotations; the singular poses have measure zero so random tests miss them","%s: Transform3T::getRPY, getYaw, setRPY"%MT)
p("C05","Quaternion to matrix","setRotation(q) is a proper rotation for every non-zero quaternion, does not depend on the length of q, and rotates vectors exactly as q v q^-1 does.","all non-zero quaternions, all vectors","continuum","%s: Mat3T::setRotation"%MT)
p("C06","Matrix to quaternion round trip","getRotation of a rotation matrix returns a unit quaternion from which setRotation rebuilds exactly that matrix (in each of the four branches), and getRotation(setRotation(q)) is q or -q for unit q.","all rotation matrices; all unit quaternions","the branch taken depends on the trace and on the largest diagonal entry; all must agree","%s: Mat3T::getRotation, setRotation, Transform3T::getQuaternion"%MT)
p("C07","Matrix normalisation","normalized() (and in-place normalize()) of a matrix with non-zero columns has unit columns with unchanged directions; in particular it strips any positive per-axis scale from a rotation (used for .dae import).","all 3x3 matrices with non-zero columns; all rotations and positive scales","continuum","%s: Mat3T::normalize, normalized"%MT, "src/io/import.cpp: readMeshFile")
p("C08","Rigid transforms are isometries","A transform whose basis is a rotation preserves distances, dot products and cross products (orientation).","all rotations, translations and point pairs","continuum","%s: Mat3T::operator*(Vec3T), Vec3T::dot, cross, length"%MT)
p("C09","2D transforms and 2D/3D projection","Transform2T has the same group laws; rotation() returns the yaw it was built from in (-pi,pi]; projectTo3d commutes with composition, inverse and application and projectTo2d undoes it.","all 2D transforms, all yaw angles, all points","continuum","%s: Transform2T, Mat2T, projectTo2d, projectTo3d"%MT)
p("C10","Vector algebra","dot/cross/length/normalized satisfy the vector identities users rely on: cross is orthogonal to its arguments, Lagrange's identity, length2 = length^2, normalized of a non-zero vector has length 1 and the same direction.","all vectors","continuum","%s: Vec2T, Vec3T"%MT)

ME="src/Mesh.cpp"; MH="include/geolib/Mesh.h"
p("C11","Stable point indices","addPoint returns the index under which getPoints() gives exactly that point, and no later addPoint/addTriangle/add changes the point at an index already handed out.","all histories of mesh building operations","unbounded histories","%s: Mesh::addPoint, Mesh::add"%ME)
p("C12","Mesh caches are never stale","After any sequence of mesh operations (building, clearing, filtering, querying in any order) getMaxRadius, getSquaredMaxRadius and getTriangles return what a computation from the current points and triangles returns.","all operation histories, every scalar value including NaN, infinities and signed zeros","cache bugs depend on the interleaving of mutators and queries","%s: invalidateCache, getTriangles, getSquaredMaxRadius, getMaxRadius, filterOverlappingVertices"%ME,"%s: Mesh::invalidateCache, clear"%MH)
p("C13","Mesh concatenation","add(mesh) appends the other mesh: the triangle soup of the result is the concatenation of the two soups and index validity is preserved, as long as fewer than 2^32 points are involved (unsigned index arithmetic).","all pairs of meshes","all sizes","%s: Mesh::add"%ME)
p("C14","Mesh transformation","getTransformed(t) applies t to every point and keeps the triangle list; transforming twice equals transforming by the composed transform; rigid transforms keep triangle shapes.","all meshes, all transforms","all sizes and transforms","%s: Mesh::getTransformed"%ME)
p("C15","Vertex filtering","filterOverlappingVertices keeps the number and order of triangles, moves every triangle corner to the first earlier point with the same millimetre key (hence by less than 1 mm per axis away from zero, less than 2 mm in the zero cell), leaves only points with pairwise different keys, and is idempotent; it is undefined behaviour when a coordinate times 1000 does not fit an int or a triangle index is out of range.","all meshes","all sizes, all coordinate patterns","%s: Mesh::filterOverlappingVertices, CompareVec3i"%ME)
p("C16","Maximum radius","getMaxRadius is the largest distance of a mesh point from the origin: it bounds every point (and every point of every triangle) and is attained; it is 0 for an empty mesh.","all meshes","all sizes","%s: Mesh::getMaxRadius, getSquaredMaxRadius"%ME)
p("C17","Triangle normals and area","getTriangleNormal of a non-degenerate triangle is a unit vector orthogonal to both edges, pointing to the side from which the vertices appear clockwise; triangleArea is half the parallelogram area and zero exactly for collinear points.","all triangles","continuum","%s: Mesh::getTriangleNormal"%ME,"src/Triangle.cpp: triangleArea, Triangle::area")

SH="src/Shape.cpp"; SE="src/serialization.cpp"
p("C18","Serialisation round trip","Writing any shape whose mesh has fewer than 2^31 points and triangles and reading the bytes back gives a shape with bit-identical points and identical triangles, whatever follows in the stream, and consumes exactly the bytes written.","all meshes, all bit patterns of coordinates (NaN payloads included), all trailing streams","all contents","%s: Shape::write, Shape::read"%SH,"%s: serialization::serialize, deserialize"%SE)
p("C19","Deserialisation dispatch","deserialize on a stream written by serialize calls the reader registered for the type tag.","all registration histories and all memory contents behind the 8-byte tag buffer","the tag buffer is not NUL-terminated, so the outcome depends on adjacent memory, which a test cannot enumerate","%s: serialization::deserialize, registerDeserializer"%SE,"%s: Shape::TYPE"%SH)
p("C20","Truncated files are not silently accepted","If a serialised file is cut at any byte (crash while writing), reading reports an error instead of producing a shape with invented data; the same for a file that cannot be opened at all.","every cut position of every serialised mesh, and unreadable files","every crash point of every file","%s: Shape::read"%SH,"%s: fromFile, toFile"%SE)
p("C21","Read yields index-valid meshes","A mesh obtained by reading a stream only contains triangles that refer to existing points.","all input byte streams","arbitrary input","%s: Shape::read"%SH)

BX="src/Box.cpp"; RY="src/Ray.cpp"
p("C22","Box containment","Box::contains(p) holds exactly when every coordinate of p is between the box's minimum and maximum, bounds included.","all boxes and points, every double including NaN and infinities","continuum / all bit patterns","%s: Box::contains"%BX)
p("C23","Ray-box intersection","For a ray none of whose normalised direction components is below 1e-9 in magnitude, Box::intersect(ray,t0,t1) returns true exactly when some point origin + t*direction with t0<t<t1 lies in the box, and then sets distance to the smallest ray parameter at which the ray is in the box.","all rays, boxes and limits t0<t1 (exact arithmetic)","continuum","%s: Box::intersect(Ray)"%BX,"%s: Ray::Ray, calculateInvDirection"%RY)
p("C24","Axis-parallel rays","Box::intersect(ray,...) is also exact for rays parallel to a coordinate plane (a zero direction component).","all rays with a direction component below 1e-9","the affected rays have measure zero so random tests miss them","%s: Box::intersect(Ray)"%BX,"%s: calculateInvDirection"%RY)
p("C25","Box-box intersection","Box::intersect(Box) holds exactly when the two axis-aligned boxes share a point.","all pairs of boxes with min<=max","continuum","%s: Box::intersect(Box)"%BX)
p("C26","Sphere-box intersection","Box::intersect(p,radius) holds exactly when the closed ball of that radius around p shares a point with the box (radius<=0: exactly when p is in the box).","all boxes with min<=max, all centres and radii","continuum","%s: Box::intersect(Vector3,double)"%BX)
p("C27","Box enclose","After b.enclose(box,pose) b contains everything it contained before and every pose-transformed point of box, and is the smallest axis-aligned box that does, for every history of enclose calls.","all boxes, all affine poses, all histories","unbounded histories, continuum","%s: Box::enclose, generate_mesh_"%BX)
p("C28","Box mesh follows the bounds","The mesh of a Box is the closed, outward oriented 12-triangle surface of exactly its current bounds, after any history of enclose calls.","all boxes, all histories","histories","%s: generate_mesh_, enclose"%BX)
p("C29","Box maximum radius","Box::getMaxRadius is the largest distance from the origin to a point of the box.","all boxes","continuum","%s: Box::getMaxRadius"%BX,"include/geolib/Shape.h: Shape::getMaxRadius")

p("C30","Shape bounding box","Shape::getBoundingBox contains every mesh point for every mesh, and is the smallest such box when the mesh is non-empty and all coordinates are within [-1e9,1e9].","all meshes, all finite doubles","all sizes and values","%s: Shape::getBoundingBox"%SH)
p("C31","Bounding box cache coherence","Whatever sequence of setMesh/getMesh/getBoundingBox calls is made on a plain shape, getBoundingBox is the bounding box of the current mesh.","all call histories","histories","%s: getBoundingBox, setMesh"%SH)
p("C32","Octree bounding box cache coherence","getBoundingBox of an octree reflects the points currently stored, whatever adds and queries happened before.","all call histories","histories","src/Octree.cpp: Octree::add, getMesh","%s: getBoundingBox"%SH)
p("C33","Sphere-shape intersection","Shape::intersect(p,r) with r>0 holds only if the ball touches the surface (within a 1e-9 relative tolerance) or the point is inside, and holds whenever the ball touches a triangle.","all meshes, centres, radii","continuum","%s: Shape::intersect(Vector3,double), checkLinesegment"%SH)
p("C34","Segment-triangle counting in Shape::contains","For a query point in general position every triangle contributes +1, -1 or 0 according to whether and in which direction the segment from the point to the outside point crosses it, and contains() is true exactly when these contributions sum to 1 (or the point lies on a triangle).","all meshes and query points in general position","continuum","%s: Shape::contains, sideProduct"%SH)
p("C35","Shape::contains never accepts outside points","contains(p) is false for points outside a closed mesh, in particular outside its bounding box.","all closed meshes and all points","special positions have measure zero","%s: Shape::contains, compute2DIntersection"%SH)

CS="src/CompositeShape.cpp"
p("C36","Composite containment is union","A composite built from boxes by any sequence of addShape calls with rigid poses contains p exactly when some child contains the inverse-transformed p.","all build histories, poses and points","histories and continuum","%s: CompositeShape::addShape, contains"%CS)
p("C37","Composite ray intersection is nearest hit","A composite of boxes is hit exactly when some child is hit, and the reported distance is the minimum over the hit children (rays with no near-zero direction component in any frame involved).","all build histories, rays and limits","histories and continuum","%s: CompositeShape::intersect(Ray)"%CS)
p("C38","Composite sphere intersection is union","The ball test on a composite of boxes holds exactly when it holds for some child.","all build histories, centres and radii","histories and continuum","%s: CompositeShape::intersect(Vector3,double)"%CS)
p("C39","Composite bookkeeping","After any sequence of addShape calls the composite's mesh is the concatenation of the transformed child meshes, its bounding box is the tight box of the transformed triangle corners (within 1e10) and getMaxRadius the largest distance of a corner.","all build histories","histories","%s: addShape, getBoundingBox, getMaxRadius"%CS)

OC="src/Octree.cpp"; ON="src/OctreeNode.cpp"
p("C40","Octree resolution","For a positive requested resolution setResolution terminates and returns the largest size/2^k not above the request; construction and later changes obey the same rule.","all sizes and positive resolutions","continuum; termination","%s: Octree::setResolution"%OC)
p("C41","Octree stores what was added","After any sequence of add/clear at a fixed resolution (at least 1e-10, the tolerance of add) getCubes lists exactly one cube of side resolution per distinct grid cell added since the last clear, each cube is grid aligned and inside the octree, and every added in-range point lies in a listed cube. getMaxRadius is the size given to the constructor and exceeds the distance from the origin of every point of every listed cube.","all histories, all in-range points","unbounded histories","%s: add, clear, getCubes"%OC,"%s: add, getCubes"%ON)
p("C42","Octree membership","contains(p) is true after add(p) and, generally, exactly for points in an occupied cell.","all histories and points","histories, deep trees","%s: contains"%ON,"%s: contains"%OC)
p("C43","Octree-box intersection","intersect(box) holds exactly when the box overlaps an occupied cell (cells half-open towards the lower side, as in add).","all histories and boxes","unbounded histories","%s: intersect(Box)"%ON,"%s: intersect(Box)"%OC)
p("C44","Octree ray intersection","intersect(ray,t0,t1,distance) terminates, returns true only if the ray passes through an occupied cell between t0 and t1, and then sets distance to the entry distance.","all octrees and rays","continuum; termination; deep trees","%s: intersect(Ray)"%ON,"%s: intersect(Ray)"%OC)
p("C45","Octree ray tracing frame condition","raytrace only frees cells that the ray passes through and otherwise changes nothing except adding the end point.","all octrees and rays","continuum","%s: raytrace"%ON,"%s: raytrace"%OC)
p("C46","Octree copies are independent","A copy-constructed octree has the same cubes and later changes to one do not affect the other; the reported emptiness and mesh follow the stored points.","all histories on two octrees","histories and aliasing","%s: Octree::Octree(const Octree&), clone, getMesh"%OC,"include/geolib/Octree.h: mesh_","include/geolib/Shape.h: empty")

HM="src/HeightMap.cpp"; HN="src/HeightMapNode.cpp"
p("C47","Height map ray hit","A ray (no near-zero direction component) hits a height map built by fromGrid exactly when it hits the column of some grid cell with positive height.","all grids (any size), resolutions > 0, rays","all sizes and rays","%s: fromGrid, createQuadTree"%HM,"%s: intersect"%HN)
p("C48","Height map nearest hit","The distance reported for a height map is that of the nearest hit column.","all grids and rays","continuum","%s: intersect"%HN)
p("C49","Height map top faces","For every grid cell with positive height the generated mesh contains a top rectangle at that height (within 1e-10) covering the cell, every top rectangle only covers cells of that height, and no cell is covered twice.","all grids","all sizes and height patterns","%s: fromGrid"%HM)

LR="src/sensors/LaserRangeFinder.cpp"; LH="include/geolib/sensors/LaserRangeFinder.h"
p("C50","Laser beam table","After any history of setNumBeams/setAngleLimits ending in a valid configuration the beams are num_beams unit directions at angles a_min + i*increment, the last one at a_max.","all setter histories","histories","%s: setAngleLimits, setNumBeams, calculateRays"%LR)
p("C51","Beam lookup","getAngleUpperIndex(angle) is the index of the first beam with a higher angle, clamped to [0,num_beams].","all angles and configurations","continuum","%s: getAngleUpperIndex, getAngleUpperIndexRaw"%LR,"%s: getAngleUpperIndex doc"%LH)
p("C52","Nearest return wins","Whatever points are rendered in whatever order, each beam finally holds the smallest positive range rendered to it or its initial non-zero value, and beams never rendered to keep their value.","all render sequences and orders, every double","all orders","%s: RenderResult::renderPoint"%LR)
p("C53","Rendering a line segment","renderLine on a segment spanning less than half a circle in front of the sensor sets exactly the beams whose angle lies in (angle(p1),angle(p2)] and to the exact distance at which the beam meets the segment; culled and out-of-range segments change nothing.","all segments and configurations","continuum","%s: RenderResult::renderLine"%LR)
p("C54","Range limit","A segment is skipped because of the maximum range only if every point of it is further away than range_max; range_max = 0 means unlimited for every rendering entry point.","all segments, shapes, poses","continuum","%s: renderLine, render"%LR)
p("C55","Slicing triangles with the laser plane","render intersects every triangle that crosses the laser plane in exactly the segment it shares with the plane, with an orientation that depends only on the triangle's normal; triangles not crossing contribute nothing.","all triangles and poses","all vertex sign patterns, continuum","%s: render"%LR)

DC="src/sensors/DepthCamera.cpp"; DH="include/geolib/sensors/DepthCamera.h"
p("C56","Camera projection round trip","project3Dto2D(project2Dto3D(x,y)*depth) = (x,y) for every pixel and every positive depth.","all pixels, depths, camera parameters","continuum","%s: project2Dto3D, project3Dto2D"%DH)
p("C57","Z-buffer","Whatever pixels are rendered in whatever order with non-zero numbers as depths, the depth image finally holds for each pixel the smallest depth rendered to it (or what was there before, 0 meaning empty), the triangle map names a triangle that produced that depth, and other pixels are untouched.","all render sequences and orders","all orders","%s: DefaultRenderResult::renderPixel"%DC)
p("C58","Rasterisation stays inside the image","Every pixel rendered by the rasteriser is inside the image, and the pointer and triangle maps are large enough for it, also when maps are reused between images of different sizes.","all triangles, images and reuse histories","memory safety for all inputs and histories","%s: drawTrianglePart, drawTriangle2D"%DC,"%s: DefaultRenderResult, EMPTY_TRIANGLE_MAP"%DH)
p("C59","Near-plane clipping","For a triangle with one or two vertices behind the near plane the triangles actually drawn cover exactly the part of the triangle in front of the near plane, keeping the orientation.","all triangles","continuum","%s: render"%DC)
p("C60","Depth images contain no NaN","Rendering finite, in-range triangles never writes NaN into the depth image.","all triangles","one special row/column alignment among billions","%s: drawTrianglePart"%DC)
p("C61","Vertex sorting and scan-line division","sort() orders the three vertices by the chosen coordinate and only permutes them; the scan-line set-up never divides by zero for the split point.","all vertex triples","continuum","%s: sort, drawTriangle2D"%DC)

SP="src/shapes.cpp"
p("C62","Generated prisms are closed","createConvexPolygon and createCylinder with at least three corners produce index-valid meshes in which every directed edge occurs exactly once and together with its reverse (closed, consistently oriented), for any number of corners.","all corner counts >= 3","all sizes","%s: createCylinder, createConvexPolygon"%SP)
p("C63","Generated prism geometry","The cylinder's vertices lie at the given radius and at +-height/2; the signed volume of the prism is positive for clockwise convex input.","all radii, heights, corner counts","continuum","%s: createCylinder, createConvexPolygon"%SP)
p("C64","Degenerate prism input","createCylinder/createConvexPolygon terminate for every corner count.","all corner counts including 0","termination","%s: createCylinder, createConvexPolygon"%SP)

IM="src/io/import.cpp"
p("C65","Mesh import","Importing a scene yields an index-valid mesh in which every triangular face of every mesh instance appears once per distinct vertex triple, with each corner being the scaled, pose-transformed vertex with the same millimetre key that came first.","all scene trees","all scenes","%s: constructMesh"%IM)
p("C66","ROS pose round trip","Converting a rigid pose to a ROS Pose or Transform message and back gives the same pose; tf2 conversions lose nothing.","all rigid poses","continuum","include/geolib/ros/msg_conversions.h: convert","include/geolib/ros/tf2_conversions.h: convert")
p("C67","ROS mesh conversion","convert(mesh,msg) makes msg describe exactly that mesh.","all meshes and previous message contents","message reuse histories","src/ros/msg_conversions.cpp: convert")
p("C68","Concurrent const queries","Two threads calling const queries on one shared mesh or shape get the correct results under every interleaving.","all interleavings of the member accesses of two or more threads","schedules","%s: getTriangles, getSquaredMaxRadius"%ME,"%s: getBoundingBox"%SH)
p("C69","Camera info round trip","A DepthCamera built from parameters reports these parameters and converts to a CameraInfo message from which the same camera is obtained, with identity rectification, no binning and no distortion. A camera taken from a message with binning and a region of interest projects points to the full image's pixel minus the offset, divided by the binning.","all parameters","continuum","%s: DepthCamera::DepthCamera"%DC,"src/ros/msg_conversions.cpp: convert")
p("C70","Export format selection","writeMeshFile derives the export format from the file name extension when no format is given, for every file name.","all file names","all strings, including short ones","src/io/export.cpp: writeMeshFile")
p("C71","Height map surface","For a rectangular grid with resolution of at least 1 mm whose different heights differ by at least 2 mm, the mesh of fromGrid is exactly: top rectangles at the heights of the cells they cover, covering every positive cell, and vertical walls that cover every edge between two cells (or a cell and the outside) of different height exactly once, spanning exactly these two heights and facing the lower side.","all such grids, of any size up to unsigned int vertex counts","all sizes and height patterns; run merging depends on neighbours","src/HeightMap.cpp: fromGrid")
p("C72","Laser scan of a mesh","Scanning a mesh leaves in every beam the old range or the distance of a true front-side hit of that beam on the mesh, never more than the old range and never more than any front-side hit within range_max.","all meshes, rigid poses, sensor configurations and previous ranges","continuum and all meshes","src/sensors/LaserRangeFinder.cpp: render, renderLine, renderPoint")
p("C73","Number of beams agrees with the stored directions","After any history of setter calls getNumBeams() is the number of stored angles and ray directions.","all setter histories","histories","src/sensors/LaserRangeFinder.cpp: setNumBeams, setAngleLimits, calculateRays")
p("C74","Rendered depths lie between the vertex depths","Every depth rendered for a triangle lies between the smallest and the largest depth of its corners (after near-plane clipping).","all triangles and images","continuum","%s: drawTriangle2D, drawTrianglePart"%DC)
p("C75","Rasterised footprint","The pixels drawn for a triangle in the image are exactly those the triangle, with its corners moved to the truncated row, has a point in; nothing is drawn for triangles turned away when culling is on.","all triangles with coordinates in the range of int, all image sizes","continuum","%s: drawTriangle2D, drawTrianglePart"%DC)
p("C76","Perspective-correct projection and culling","The image position and inverse depth of the points of a triangle in front of the camera are exactly the points of the image triangle spanned by its projected corners and their inverse depths, and a triangle is culled exactly if its front does not face the centre of projection.","all triangles and cameras with positive focal lengths","continuum","%s: render, drawTriangle, drawTriangle2D"%DC,"%s: project3Dto2D"%DH)
p("C77","Rendering a mesh","Rendering a mesh with visible image coordinates in range completes; every pixel drawn is less than one pixel away from the image of a point of the triangle it is labelled with, in front of the near plane and facing the camera (with culling), and the facing parts of all triangles in front of the near plane are drawn.","all meshes, rigid poses, cameras and image sizes","continuum and all meshes","%s: render, drawTriangle2D, drawTrianglePart"%DC)
p("C78","Reading a mesh file","readMeshFile returns no shape for a file the importer cannot read, throws for file names shorter than three characters, ignores the node transformations exactly for names ending in 3ds, and for names ending in dae drops rotation and translation of the root node but keeps its scale.","all file names and scenes","all scene graphs and strings","src/io/import.cpp: readMeshFile, constructMesh")
p("C79","Export then import","A mesh that is exported and read back has the same vertices and triangles, with the vertices of one millimetre cell merged into the first one and duplicate triangles dropped; nothing changes if no two vertices share a cell and no triangle occurs twice.","all meshes","all meshes","src/io/export.cpp: writeMeshFile","src/io/import.cpp: readMeshFile, constructMesh")
p("C80","Octrees own their nodes","A program that constructs, copies, changes, queries and destroys any number of octrees in any order never touches freed memory, frees every node exactly once, and gets the answers it would get if every octree were an independent value: no call on one octree changes what another one answers.","all programs over any number of octrees, every scalar type","memory safety and independence for all call sequences","src/OctreeNode.cpp: OctreeNode, ~OctreeNode, addPoint","src/Octree.cpp: Octree, ~Octree, clear, clone")
p("C81","Assigning octrees and height maps","After a = b for two octrees or two height maps, a is a copy of b of its own, and both can be destroyed.","all programs before the assignment, both destruction orders","all histories","include/geolib/Octree.h: class Octree (implicit copy assignment)","include/geolib/HeightMap.h: class HeightMap (implicit copy assignment)")
p("C82","Height maps release their memory","A program that constructs, copies, queries and destroys height maps never touches freed memory, copies are independent of their originals, and when all maps are destroyed all their nodes are released.","all programs over any number of height maps","histories and tree shapes","src/HeightMapNode.cpp: HeightMapNode, ~HeightMapNode","src/HeightMap.cpp: HeightMap, ~HeightMap")
p("C83","Height image to mesh file","height_image_to_file writes to the named file exactly the block surface of the image: the pixel in row y and column x becomes the cell (x, rows-1-y) of height block_height*(255-v)/255, white pixels become nothing, and everything is shifted by the given origin; wrong argument counts and unreadable images give exit code 1 and no file.","all images, all documented command lines, all resolutions of at least 1 mm","all images; a flipped axis or an off-by-one shows only on asymmetric ones","tools/height_image_to_file.cpp: main","src/HeightMap.cpp: fromGrid")
p("C84","Command line of height_image_to_shape","height_image_to_shape INPUT_IMAGE RESOLUTION [BLOCK_HEIGHT] [ORIGIN_X ORIGIN_Y] uses every documented argument, and both conversion tools report success only if the file was written.","all documented command lines","all argument combinations and failing file systems","tools/height_image_to_shape.cpp: main","tools/height_image_to_file.cpp: main")
p("C85","Rounding of transforms","In double precision, applying, composing and inverting transforms gives results within an explicit small multiple of 2^-53 times the size of the numbers involved, and transforming a point there and back by a nearly orthonormal transform returns it up to such an error; nothing overflows.","all finite transforms and points below 2^1013","rounding errors over the whole range of doubles, cancellation","%s: Transform3T::operator*, inverse"%MT,"%s: Mat3T::operator*"%MT)
p("C86","Rounding of rotations from quaternions","For every quaternion of doubles, normalized or not, whose squared length lies between 2^-900 and 2^900, setRotation gives a finite matrix within 64*2^-53 of the exact rotation v -> q v q^-1, so it is orthonormal up to 448*2^-53 and a pose made from it can be inverted up to 1500*2^-53 times the coordinates; length() and normalized() are as accurate for vectors and quaternions of such length. Any nonzero quaternion gives a finite matrix.","all quaternions and vectors of doubles of that length","rounding errors over the whole range of doubles","%s: Mat3T::setRotation, Vec3T::length, Vec3T::normalized, QuaternionT::normalized"%MT)
p("C87","Points inside closed meshes","For a closed convex mesh whose triangles face outwards and do not overlap, contains(p) is true exactly for the points strictly behind all faces. For any closed mesh, convex or not, the crossing count that contains() compares with one changes along a straight line by the signed number of triangles the line crosses. Real arithmetic, points in general position with respect to the mesh and the outside point.","all closed meshes, all points in general position","unbounded meshes, real geometry","%s: Shape::contains, Shape::check_linesegment"%SH)
p("C88","Points inside cylinders and convex polygons","contains(p) on a shape from createConvexPolygon with a strictly convex clockwise outline is true exactly for the points of the prism: between the two heights and to the right of every side. On a shape from createCylinder it is true for points closer to the axis than radius*cos(pi/n) and between the caps, and false beyond the radius or beyond the caps. Real arithmetic, points in general position.","all outlines, radii, heights and corner counts, all points in general position","unbounded corner counts, real geometry","src/shapes.cpp: createCylinder, createConvexPolygon","%s: Shape::contains"%SH)
p("C89","Renderings depend on the relative pose","The laser scan and the depth image of an object depend only on its pose in the sensor's frame: rendering with a sensor pose and an object pose gives what rendering with the object's pose in the sensor's frame gives, and moving sensor and object together changes nothing.","all meshes, sensors and rigid poses (real arithmetic)","continuum of poses","%s: LaserRangeFinder::render"%LR,"%s: DepthCamera::rasterize"%DC)
p("C90","The two matrix types agree","The array-based Vector3, Matrix3x3 and Transform of matrix.h compute exactly what the templates of math_types.h compute: sums, products, lengths, normalization, roll-pitch-yaw matrices bit for bit for every scalar type, inverses for reals and doubles including signed zeros, infinities and NaN; getRow is defined exactly for the three rows.","all vectors, matrices and transforms","every bit pattern of doubles","include/geolib/matrix.h: Vector3, Matrix3x3, Transform","%s: Vec3T, Mat3T, Transform3T"%MT)
p("C91","Octrees on doubles","In double precision, for sides from 1 nm to 500 km and resolutions of at least 1 nm, an octree behaves as on real numbers up to one rounding of each added or queried point (2^-53 times the side): resolutions are exactly the side over a power of two, the descent never rounds, every added point lies in a listed cube and every listed cube holds an added point up to 65*2^-53 times the side, cube corners are exact when the side has few significant bits, point and box queries answer for points and boxes displaced by at most that rounding, and no call loops.","all sides, resolutions and histories of adds, clears, resolution changes, copies and mesh queries on doubles","rounding behaviour over all doubles, unbounded histories","%s: add, setResolution, getCubes, contains, intersect"%OC,"src/OctreeNode.cpp: add, getCubes, contains, intersect")
p("C92","Stopping a rendering","A RenderResult whose renderPixel calls stop() is handed the remaining pixels of the triangle being drawn and no pixel of a later triangle; the calls it gets are the first calls of the rendering that is not stopped, and all of them if it never calls stop().","all RenderResult subclasses, meshes, poses and cameras, every scalar type","arbitrary callbacks with state and unbounded meshes","%s: render"%DC,"include/geolib/sensors/DepthCamera.h: RenderResult::stop, renderPixel")
p("C93","showKinect shows the shape from all sides","visualization::showKinect shows one image for each of the angles 0, 0.05, 0.1, ... below 6.283 (126 images) or stops after the first image during which a key is pressed, and the images show the shape.","all shapes, canvas sizes and key sequences","all shapes; windows cannot be inspected by tests","src/visualization.cpp: showKinect")
p("C94","show displays a shape file","show FILE exits with 1 for a wrong number of arguments or a file that neither reader accepts; otherwise it shows one image for each of the angles 0, 0.07, 0.14, ... until q is pressed and exits with 0. Every image is completed, the whole shape is in view at every angle, and pixels other than black lie within one pixel of a triangle facing the camera.","all files, shapes, angles and key sequences (real arithmetic)","continuum of angles and all shapes","tools/show.cpp: main")
p("C95","Assignments, comparisons and element access of vectors, matrices and transforms","Assigning or combining objects in place (=, +=, -=, *=, /=, normalize, setOrigin, setBasis) leaves in the object the result computed from the values before the statement, also when both operands are the same object or the scalar is a component of it, and changes nothing else. A copy compares equal to its original exactly if it contains no NaN. m(i,j), getRow(i) and getColumn(j) address the same element; the only accesses that are not undefined are those inside the array, so m(0,3) is silently m(1,0). Matrix and quaternion sums, differences and multiples act linearly.","all values and all placements of the operands in memory, every scalar type; comparisons on doubles and reals, linearity on reals","aliasing and all values, including NaN","%s: Vec2T, Vec3T, Mat2T, Mat3T, QuaternionT, Transform2T, Transform3T"%MT)
p("C96","From ranges to points","For a configured laser range finder, rangesToPoints gives for n ranges n points, the i-th at the given range along beam i in the scanner's plane, and nothing if the number of ranges does not match; rangeToPoint and getRayDirection agree with it, and looking up the angle of such a point gives the index of its beam. The points of a rendered scan are the scanner itself or lie on a front face of the rendered mesh. polarTo2D converts to Cartesian coordinates and polarTo3D rotates them by the pose without moving them. min_i and max_i of a rendering enclose all beams it changed.","all configurations, ranges, meshes and rigid poses (real arithmetic); the last for every scalar type","continuum of angles, all meshes","%s: rangesToPoints, rangeToPoint, getRayDirection, polarTo2D, polarTo3D, RenderResult"%LR)
p("C97","Shapes through their common interface","In any program over plain shapes, boxes and composites that sets meshes, encloses boxes, asks for bounding boxes and adds shapes to composites: the number of triangles of each shape is that of the last mesh set on it, 12 plus 12 for each enclose for a box, and the sum over the shapes added (as they were then) for a composite; empty() is true exactly if it is zero; no call changes another shape; setMesh on a box or composite throws and changes nothing. Ray tests throw on plain shapes, return on boxes and composites without plain shapes inside, and throw on a composite to which a plain shape was added exactly for the rays that hit its bounding box. The bounding box of a box is the smallest one around its mesh.","all programs over any number of shapes, every scalar type; bounding boxes on reals","unbounded programs and nesting","%s: setMesh, getMesh, intersect, getBoundingBox, empty"%SH,"%s: setMesh, getBoundingBox, enclose"%BX,"%s: addShape, setMesh, intersect"%CS)
p("C98","Ray-box test in floating point","In the arithmetic of the code (doubles, slab parameters rounded to floats) Box::intersect(ray,...) gives exactly the answer and entry distance of an exact test on a box whose faces are displaced by at most 2^-23 of their distance to the origin of the ray, so a ray that passes the box grown by that margin is never reported as a hit and a ray through the box shrunk by it is never missed.","all boxes and rays with coordinates below 1e20 and no direction component below 1e-9, all ranges","rounding over the whole range of doubles and floats","%s: Box::intersect(Ray)"%BX,"%s: Ray, calculateInvDirection"%RY)
p("C99","Point containment and radii in floating point","In double precision getMaxRadius and getSquaredMaxRadius are within 18*2^-53 and 16*2^-53 of the exact values (relative), and contains() gives the answer of the exact computation for every point that is not within rounding distance of a decision: outside the thin shell 100*2^-53 around the bounding sphere, and with orientations, heights and areas beyond the code's tolerances by a stated multiple of 2^-53 times powers of the radius. In a closed convex mesh it decides whether the point is strictly behind all faces.","all meshes of finite doubles built by any operations with radius between 2^-100 and 2^99, all points up to 2^100","rounding over all meshes and points","%s: contains"%SH,"%s: getMaxRadius, getSquaredMaxRadius"%ME)
p("C100","Segments through edges and corners","contains(p) connects p with a point outside the mesh; when that segment passes exactly through edges shared by two triangles, the answer is the one of every sufficiently close segment in general position: an edge between two triangles facing the same way counts as one crossing, an edge seen from the side counts as none. So points outside a convex set around a closed mesh are not contained, points strictly inside a closed convex mesh are contained (also when the segment leaves through a corner), and away from corners contains() decides which of the two holds.","all closed meshes with fewer than 2^32 points, all points off the surface whose segment meets each edge line exactly or stays clear of it by the tolerance of the code (real arithmetic)","exact hits of edges have measure zero and depend on the hit maps over unbounded triangle lists","%s: contains"%SH)
p("C101","Ball-box test in floating point","In double precision Box::intersect(p, radius) with a positive radius returns true only if some point of the box has a squared distance to p of at most radius^2*(1+10*2^-53), and returns true whenever some point of the box has a squared distance of at most radius^2*(1-10*2^-53) (up to a few units of the smallest subnormal); with a radius of zero or less it decides containment of p exactly.","all boxes with ordered corners, points and radii of finite doubles up to 2^400","rounding over all doubles, including boxes a few units in the last place thin","%s: intersect(Vector3, double), contains, getCenter"%BX)
p("C102","Pixels on doubles","In double precision, for cameras without translation, project3Dto2D(project2Dto3D(x,y)*depth) differs from (x,y) by at most 7*2^-53 times the coordinates plus the optical centre, so its nearest integers are the pixel; project3Dto2D<double,int> gives back the pixel.","all int pixels, depths and focal lengths between 2^-100 and 2^100, optical centres up to 2^40","rounding over all cameras, depths and pixels","%s: project3Dto2D, project2Dto3D"%DH)
p("C103","Vertex merging on doubles","In double precision filterOverlappingVertices and the mesh import give a coordinate the number of its whole millimetres as key, or the next millimetre away from zero when the product with 1000 rounds onto it; every mesh of finite doubles within 2147 km can be filtered; and a triangle corner is replaced by a point less than 1 mm + 1 nm away per axis (2 mm + 1 nm in the cell around zero; for the import after scaling).","all vertices, meshes and scales of doubles","rounding over all doubles","%s: filterOverlappingVertices"%ME,"%s: constructMesh"%IM)
p("C104","Quaternions of matrices on doubles","In double precision getRotation gives, for a matrix within e of a rotation, a finite quaternion within 6 e + 36 u of one of the two unit quaternions of that rotation, whichever branch the computed trace and diagonal choose; quaternion to matrix to quaternion gives the same unit quaternion up to sign and 420 u, normalized or not; matrix to quaternion to matrix gives the rotation up to 90 e + 604 u; and after n conversions of a pose to a message and back the position is unchanged and the rotation has moved by at most 6500 n u.","all double matrices near a rotation, all double quaternions of sane length, any number of conversions","rounding over all doubles and the branch taken at the borders; any number of conversions","%s: Mat3T::getRotation, Mat3T::setRotation"%MT,"include/geolib/ros/msg_conversions.h: convert")
p("C105","Rays on height maps on doubles","In the arithmetic of the code a ray hits a height map exactly when the ray test reports a hit for the box of the column of some cell of positive height, for every direction, and the reported distance is the one reported for such a column: rounding makes the quad tree neither lose nor invent a hit. A box containing another box is hit whenever the inner box is, no later. Rays passing a column at least e inside its faces are reported, and a reported ray passes a column of the map within e at the reported distance, with e about 2.5e-7 of the extent of the scene.","all double grids of any size, resolutions, ray origins, directions and limits","rounding over all doubles on trees of any depth","%s: HeightMapNode::intersect"%ON.replace("OctreeNode","HeightMapNode"),"%s: HeightMap::intersect, HeightMap::createQuadTree"%HM)
p("C106","Invalid depths only in the first column","Whatever the mesh, the pose and the camera parameters (NaN and infinite values included), if rendering returns then every pixel with a NaN depth that the camera hands out is in the first column of the image, so rasterize leaves all other columns free of NaN. A row of a triangle yields a NaN exactly when the row is a single point strictly between -1 and 0 with equal inverse depths at its ends; every triangle in view that spans several rows and whose topmost vertex is projected less than one pixel left of a row of the image yields one.","all double meshes, poses, cameras, images of fewer than 2^24 - 1 rows, and all classes derived from RenderResult","needs all float rows, including overflowing slopes","%s: drawTrianglePart, drawTriangle2D, render, rasterize"%DC)
p("C107","Integer vectors and default transforms","Operations on int vectors, matrices and transforms are the exact integer ones whenever they do not overflow, and they never overflow if all components are at most 26754 in absolute value, which is the largest such bound; int transforms that permute and flip axes are inverted exactly. The length of an int vector is the integer part of the exact length and normalising one yields components -1, 0 or 1. Operations on unsigned vectors are the integer ones modulo 2^32 for all values, so composing unsigned transforms and undoing axis permutations always succeeds. A default Transform2 maps every point to the origin; a default Transform3 has an uninitialised rotation, so every point it is applied to becomes indeterminate, as do its products and its inverse, until a rotation is assigned. Constructing from one value fills all components; constructing from an array copies the elements in order and requires 2, 3 or 9 of them.","all vectors, matrices and transforms with int and unsigned components","needs all 32-bit values, and uninitialised memory has no stable value to test","include/geolib/math_types.h: Vec2i, Vec3i, Vec3u, Mat3i, Transform3i, Transform3u, Vec3T::length, Vec3T::normalized, Transform2T(), Transform3T(), Mat3T()")
p("C108","Trigonometry on doubles","With a mathematics library whose sines and cosines are within c units of 2^-53 and whose atan2 is within 4c units, and with pi the nearest double, building a rotation from roll, pitch and yaw on doubles gives a finite matrix within (6c+10) units of the exact rotation, orthonormal up to seven times that; points transformed by it are within (18c+56) units of their size of the exact image; reading roll, pitch and yaw back returns the angles with an error inversely proportional to the cosine of the pitch, for angles short of pi and pitches not at the singularity; the planar transform and its angle round trip within 8c units; and every corner of a generated cylinder is within (c+34) units of its size of the corner of the exact regular prism.","all finite angles, radii, heights and points in double precision, all numbers of corners, and every library meeting the accuracy contract","tests compare a few angles against the library they run on","include/geolib/math_types.h: Mat3T::setRPY, Transform3T::getRPY, Transform3T(x,y,z,roll,pitch,yaw), Transform2T::setRotation, Transform2T::rotation; src/shapes.cpp: createCylinder")
p("C109","Laser range finder on doubles","With beams at least a microradian apart, limits of at most 8 radians and a mathematics library accurate to c units of 2^-53, every configuration is accepted; after every configuration history beam i is within 9i+48 units of its exact angle (the angle is accumulated, so the error grows with i) and its direction within c+9i+51 units; the beam index of an angle or point that is at least a millionth of an increment off the beams is exactly the first beam above it; a range becomes a point within c+9i+53 units of its size of the exact point; and drawing a segment changes exactly the beams that the exact segment lights, each to the single precision rounding of a distance within (4c+30i+200) units, scaled by the size of the segment over the sine of the incidence angle, of the exact distance, when that is nearer than the stored range.","all configuration histories, angles, points, ranges and segments in double precision, any number of beams, and every library meeting the accuracy contract","accumulated rounding depends on the configuration; tests sample a few beams and compare with the library they run on","src/sensors/LaserRangeFinder.cpp: calculateRays, setAngleLimits, setNumBeams, getAngleUpperIndex, getAngleUpperIndexRaw, rangeToPoint, getRayDirection, RenderResult::renderLine, renderLine")
p("C110","Printed values can be read back","If every component prints as a non-empty word without white space, splitting the text printed for a vector, quaternion, matrix, transform or triangle at white space gives exactly its components, in row-major order and with the translation before the rotation, and values whose components print differently print differently; the decimal indices printed for a mesh triangle read back as those indices.","all values of all printable types, any component printer with the stated property, all indices","tests compare a few printed strings","include/geolib/math_types.h: operator<< of Vec2T, Vec3T, Mat2T, Mat3T, QuaternionT, Transform2T, Transform3T; include/geolib/matrix.h: operator<<; src/Triangle.cpp: operator<<; include/geolib/Mesh.h: operator<< of TriangleI")
p("C111","Containment and ball test of composite shapes in double precision","For a composite built on doubles by any number of addShape calls with boxes and previously built composites, contains() only accepts points that lie in one of the placed boxes grown by e, and accepts every point of a placed box shrunk by e; the ball test agrees with the exact one up to 2e plus 40 units of roundoff of the overall size.  e is (depth) x (20 times the error of the rotation matrices plus 150 units of roundoff) x (overall size).  Neither test throws, and a radius of zero or less asks for containment.","all construction histories of any nesting depth with fewer than 2^29 boxes, all poses whose matrices are close to rotations (in particular those set from quaternions of sane length), all finite query points within the overall size, all finite radii","rounding errors accumulate over the frames, and the bounding box that is tested first is itself computed from rounded corners","src/CompositeShape.cpp: addShape, contains, intersect(Vector3, double); src/Box.cpp: contains, intersect(Vector3, double); include/geolib/math_types.h: Transform3T::inverse, operator*; src/Mesh.cpp: getTransformed, add")
p("C112","Rotations of integer matrices","On int matrices getRotation/getQuaternion never overflows for elements up to 5e8 and returns a quaternion with at most one component that is not zero: the scalar part if the trace is positive, otherwise the component of the largest diagonal element.  Of the integer rotations exactly the identity and the half turns about the axes survive getQuaternion followed by setRotation; for all others (every quarter turn) setRotation divides by zero.  setRotation is exact for quaternions of squared norm 1 or 2, gives the identity for any larger norm, and is undefined for zero.  setRPY with integer angles in (-pi, pi) gives a diagonal matrix of zeros and ones that is a rotation only if all angles are zero; through Transform3i angles below one radian count as zero.  Unsigned matrices return (0, 0, 0, w) for a trace that is not zero modulo 2^32, and are undefined for the trace 2^32 - 1.","all int matrices with elements up to 5e8 and all unsigned matrices, all int quaternions with components up to 10000, all integer rotations, all angles below 4 in absolute value, all accurate libraries with cos(0) = 1","the truncation of 0.5 / s, of 2 / d and of sines and cosines hides in implicit conversions, and which rotations survive is a statement about all integer matrices","include/geolib/math_types.h: Mat3T::getRotation, Mat3T::setRotation, Mat3T::setRPY, Transform2T::setRotation, Transform3T::getQuaternion, Transform3T::setRPY, Mat3i, Mat3u, Transform3i")
p("C113","Triangles in one plane with the outside point","When a triangle of the mesh lies in one plane with the query point and the point (1.1 r, 0, 0) that contains() connects it to, the triangle decides alone if the line through both points meets it anywhere: contains() is then true whatever the other triangles, so all points of the triangle are accepted and so are points outside the mesh on the line behind it.  If the line passes by the triangle it has no influence: with the other triangles in general position the answer is given by the signed crossings.","all meshes and histories of mesh operations, all query points, all triangles with an area in a plane with the line (real arithmetic); for the second part one of the first two corners at least 2e-16 / length away from the line","exactly coplanar configurations have measure zero and the code takes a separate branch for them","src/Shape.cpp: Shape::contains, compute2DIntersection, lineLinesegmentIntersection, sideProduct")
p("C114","Rays through composite shapes on doubles","In the arithmetic of the code (doubles, slab parameters and limits rounded to floats) a ray test on a composite of boxes in nested poses of any depth reports a hit only if the ray, at the reported distance and before the limit, is within e of a box of the composite; and a box the ray passes e inside its faces within the limits is always reported, at a distance no later than any point e inside any such box, so the reported box is the first one up to e.  e is 1e-6 of the extent of the scene plus one small contribution per level of nesting; neither the test of the bounding boxes nor the order of the children loses a hit.","all histories of addShape calls on doubles, all depths and numbers of children, all ray origins, directions without components below 2e-9 in any frame, all limits","rounding over all doubles on trees of any depth","%s: CompositeShape::intersect(Ray), CompositeShape::addShape"%CS,"%s: Box::intersect(Ray)"%BX,"%s: Ray, calculateInvDirection"%RY)
p("C115","Boxes on doubles","In double arithmetic enclosing one box by another never loses any of the old box, covers every point of the moved box up to the rounding error e of moving one point, and is the smallest such box up to e; over any history of constructions and enclosing calls the corners stay finite, in order and within the accumulated error of the same history in exact numbers, and when fresh boxes are enclosed one after the other the error does not add up however many there are.  The size has relative error u, is never negative and is zero only if the corners agree; the centre lies exactly inside the box; the radius is the larger of the two corner lengths up to 6 u.","all histories of constructions and enclosing calls with coordinates below 2^1020, all poses (rotations or not)","rounding over all doubles and histories of any length","%s: Box::enclose, getSize, getCenter, getMaxRadius, constructor"%BX)
p("C116","Angles of integer transforms","Roll, pitch and yaw of an int transform are the directions of the matrix entries within the accuracy of the maths library (the arguments carry no rounding except one square root), and the singular case is chosen exactly when the last row is (negative, 0, 0); the call is undefined exactly when the sum of squares of the last two entries of the last row or a negation overflows.  The angles give every integer rotation back, except three of the four with the x axis turned to z, for which roll and yaw are both reported as 0.  The angle of an int planar transform is truncated to an integer between -3 and 3, so quarter turns read as 1 and -1 radians and the half turn as 3.  For unsigned components nothing is undefined and the pitch is never negative.","all int and unsigned matrices, all maths libraries meeting the accuracy contract with a constant up to 1000","2^288 matrices; the answer depends on overflow, truncation and on the signs of zeros","%s: Transform3T::getRPY, getYaw, Transform2T::rotation with int and unsigned int"%MT)
p("C117","Normals, areas and normalised matrices on doubles","In double arithmetic the normal of a mesh triangle has length 1 up to 14 u and points in the exact direction up to (30/k + 8) u, and the area has relative error (18/k + 8) u, where k is twice the area divided by the extents of the two sides at the first corner; two equal corners give an area of exactly zero and a normal that is NaN in every component, whereas three different points exactly on a line can have a positive area and a unit normal.  Normalising a matrix, in place or not, gives columns of unit length within 8 u, and recovers a rotation whose columns were scaled and given with relative error e up to 3 e + 8 u.","all meshes of doubles and all their triangles with coordinates below 2^400 and quality k at least 1e-9; all matrices with columns away from overflow and underflow","rounding over all doubles; slivers are not found by sampling","src/Mesh.cpp: getTriangleNormal","src/Triangle.cpp: triangleArea, Triangle::area","%s: Vec3T::cross, normalized, Mat3T::normalize, normalized"%MT)
p("C118","Scanning meshes on doubles","In double arithmetic render of the laser range finder draws, for every triangle and in order, the exact slice (within 33 u times the size of the scene) of a triangle whose corners are within 27 u times that size of the true ones, and nothing when that triangle is on one side of the plane; when the corners are clear of the plane the decision is right and the end points are off by the corner error times distance over height.  The slice does not depend on which corner is listed first, and two triangles that share an edge get bit-identical end points on it, so a closed surface leaves no cracks.  A mesh is skipped only if, up to rounding, it is on one side of the plane or out of range.  Corners a subnormal distance off the plane can move the segment anywhere.","all meshes of doubles, all poses with rotation entries up to 2, coordinates up to 2^400, all range finders and C libraries","rounding over all doubles and all sign patterns; any number of triangles","%s: render"%LR)
p("C119","Maximum range of laser lines on doubles","In double arithmetic a segment that comes within the maximum range (squared distance below its square by 40 u times (size squared plus range squared)) is drawn whole, with bit for bit the ranges that a sensor without a limit would give, so exactly the beams it lights change; a segment that stays out of range by the same margin changes nothing.  The margin is needed: some segments in range are skipped and some out of range are drawn.","all segments of doubles at least 1e-6 long with coordinates up to 1e6, all maximum ranges up to 1e9, all range finders and C libraries","rounding over all doubles; the nearest point may be either end or in between","%s: renderLine"%LR)
p("C120","Default-constructed matrix.h objects","In every program over Vector3, Matrix3x3 and Transform of matrix.h, whatever counts as initialised (written by a constructor, setter or computed from initialised values only) ends with the same value whatever the storage held before.  The only undefined call is getRow outside 0..2.  A default-constructed vector has a defined length exactly when x, y and z have all been set, and each holds the value set last.  A default-constructed Transform whose angles are set gets a defined rotation but its origin can never be set: applying, inverting or multiplying it uses uninitialised numbers, and the result does depend on them.","all programs of calls on any number of variables, all scalar types, all contents of the uninitialised storage","a test sees one content of the storage, often zeros","include/geolib/matrix.h: Vector3, Matrix3x3, Transform")
p("C121","Balls reaching the edges of a mesh, on doubles","On doubles, a ball whose squared radius exceeds its squared distance to some point of some edge (or corner) of the mesh by 1000 units of rounding of M^2 + r^2 is reported to intersect, however long, short or degenerate the triangles and their edges are and wherever the triangle stands in the list; a ball whose centre is farther from the origin than the mesh's maximum radius plus its own radius, by 60 units of rounding of M, is reported not to intersect.","all meshes of finite points with coordinates up to M (1 to 1e6) and a point at least 2^-100 away from the origin, built by any sequence of operations, all finite centres with coordinates up to M, all radii up to 1e6, all points of all edges","a test takes one ball and one mesh; cancellation in the distance to a line, division by the length of a tiny edge and the rounded maximum radius could each lose a ball elsewhere","src/Shape.cpp: Shape::intersect(const Vector3&, double), checkLinesegment; src/Mesh.cpp: Mesh::getMaxRadius")
p("C122","Containment and ball queries with NaN","On doubles, contains answers false for a point with a NaN coordinate, and a ball whose centre has a NaN coordinate intersects nothing, whatever the radius and the mesh (NaN and infinite points included). A ball query with a NaN radius gives the answer of contains at its centre. Triangles with a NaN corner count for nothing in contains: leaving out some or all of them changes no answer.","all meshes with valid indices, all points, balls and radii of doubles, NaN and infinities included; all sublists of the triangles with a NaN corner","a test tries one place for the NaN; every comparison of the algorithm has to fail on the right side","src/Shape.cpp: Shape::contains, Shape::intersect(const Vector3&, double), sideProduct, checkLinesegment")
with open('/verif/properties.jsonl','w') as f:
    for x in P: f.write(json.dumps(x)+"\n")
print(len(P))
