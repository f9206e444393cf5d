NA={}
NOTES={
'C01':'Real arithmetic; rounding not covered.',
'C02':'Real arithmetic; rounding not covered.',
'C03':'Real arithmetic; rounding not covered.',
'C04':'REFUTED as stated at pitch = -pi/2 (the singularity test only looks at +pi/2): C04_rebuild_refuted, exact characterisation in C04_singular_minus. C04_rebuild_partial covers every other rotation except the open 1e-12 band below +pi/2, where getRPY deliberately approximates.',
'C05':'Real arithmetic.','C06':'Real arithmetic; all four branches.','C07':'Real arithmetic.','C08':'Real arithmetic.','C09':'Real arithmetic.','C10':'Real arithmetic.',
'C11':'Every scalar type.','C12':'Every scalar type with IEEE-like comparisons (reals and all doubles incl. NaN).',
'C13':'Every scalar type; the 2^32 bound is shown to be needed (C13_wraps).','C14':'Data movement for every scalar type; composition and rigidity over the reals.',
'C15':'Exact behaviour for every scalar type; key meaning and displacement over the reals.','C16':'Real arithmetic.','C17':'Real arithmetic.',

'C18':'Byte-level model of the stream operators; every stored mesh, bit patterns of doubles opaque.',
'C19':'Truncated or failed streams: what the reader actually returns is characterised; the claim as stated is refuted.',
'C20':'See the _partial and _refuted theorems.',
'C21':'REFUTED: indices are not checked on reading; only streams written from index-valid meshes are safe.',
'C22':'Every double including NaN/infinities, and the reals.','C23':'Real arithmetic (the float narrowing nf32 is the identity over the reals).',
'C24':'REFUTED in both directions; C24_forward_partial characterises the forward case: such rays never hit.',
'C25':'REFUTED: the z test uses the y centre. C25_actual is the exact decision; C25_partial covers boxes whose y and z centres agree.',
'C26':'Real arithmetic.','C27':'Real arithmetic; arbitrary affine poses and histories.',
'C28':'Holds for freshly constructed boxes (C28_constructor_partial); REFUTED after enclose, which appends to the old mesh.',
'C29':'REFUTED; C29_bound_partial is the exact condition (iff).','C30':'Every double and the reals; NaN behaviour in C30_nan_forgets.','C31':'Every scalar type.',

'C36':'Real arithmetic; arbitrary trees of boxes and composites with rigid poses, fewer than 2^32 mesh vertices.',
'C37':'Real arithmetic; arbitrary trees; rays with no near-zero direction component in any frame of the tree (the box slab test is unreliable otherwise, see C24).',
'C38':'Real arithmetic; arbitrary trees.',
'C39':'Real arithmetic; children with arbitrary well-formed meshes; tightness for corners within 1e10, as the code initialises its running bounds with +-1e10.',

'C32':'REFUTED: a box once computed is returned for ever (C32_frozen, every scalar type; C32_stale_refuted on doubles). C32_first_query_partial: the first query encloses every cube up to the 2 mm vertex merge and lies inside every box enclosing the cubes.',
'C40':'Real arithmetic. A request that is not positive never returns (C40_not_positive).',
'C41':'Real arithmetic; histories of adds, clears, resolution changes, setMesh, copies and queries (C41_cells), uniqueness and placement of cubes for every reachable octree, return of every history. One cube per cell (C41_fixed) for resolutions of at least 1e-10, the tolerance used by add.',
'C42':'REFUTED both ways on doubles (a point just added is not found, a point in an empty cell is found): contains descends without subtracting the child offset. C42_exact is the exact behaviour for every reachable octree; the claim holds on a ladder of cells and for at most two cells per axis.',
'C43':'Real arithmetic; every reachable octree, every ordered box.',
'C44':'REFUTED: t1 is not a limit, a hit in the first cell leaves distance unset, rays parallel to an axis never hit, and on doubles the call may never return. C44_ray_partial: over the reals it returns, hits are real, and misses skip only chords of at most a tenth of the resolution.',
'C45':'Real arithmetic; every ray, t0 and t1, every reachable octree. The end point is clamped into the octree. On doubles the call may never return (C45_may_not_return).',
'C46':'Copies and mesh currency for every scalar type; mesh content over the reals for sides up to 4e6 (int conversion in the vertex merge). REFUTED for emptiness: empty() reads a base-class mesh that is never filled.',
'C47':'Real arithmetic, exact iff for every rectangular grid with a vertex count within unsigned int. Grids accepted (C47_returns), malformed grids are undefined behaviour (C47_malformed, every scalar type).',
'C48':'REFUTED on doubles: children are visited in a fixed order. Proved: the reported distance is the entry of some hit column, and of the nearest one when the ray starts inside a column.',
'C49':'REFUTED on doubles for "no cell is covered twice". Proved over the reals: coverage, heights and corners up to the documented vertex merging.',
'C71':'Real arithmetic, exact triangle soup. The mesh has no bottom faces.',
'C62':'Every scalar type; up to 2^31 (cylinder) or 2^30 (polygon) corners, so that indices fit their types.',
'C63':'Real arithmetic. Volume = height x area, and every vertex lies behind every triangle for clockwise convex input.',
'C64':'REFUTED for the polygon: an empty list never returns. The cylinder returns for every unsigned count, but with 0 corners has 2^33 - 4 dangling triangles.',
'C33':'Real arithmetic, meshes built by any operation sequence. Soundness for every mesh without degenerate triangles; completeness for balls that reach an edge or whose centre is not behind the triangle. REFUTED on doubles for balls that reach the inside of a triangle from behind: the foot of the perpendicular is computed on the wrong side.',
'C34':'Real arithmetic for the counting; general position is spelled out in s_generic (the tolerances of the code). C34_returns for every scalar type.',
'C35':'REFUTED on doubles for points outside the bounding box whose segment to the outside point passes through edges. Proved in general position: outside any convex set around the mesh (C35_convex_partial, C35_box_partial), and invariance along paths that meet no triangle (C35_joined_partial), which covers pockets and holes. C35_corner_refuted: for a segment that only touches a corner the answer depends on the order of the triangles. C100 covers segments exactly through edges.',

'C50':'Real arithmetic; every history of setters that ends in a valid configuration.',
'C51':'REFUTED for angles less than one increment before the first beam (the index is truncated towards zero). C51_partial is the exact value for every other angle.',
'C52':'Every scalar type with IEEE-like comparisons (reals and all doubles, incl. NaN).',
'C53':'Real arithmetic. REFUTED for end points in the gap before the first beam (C53_gap_refuted) and for nearly opposite end points, which are culled (C53_cull_refuted). C53_partial covers every other segment, exactly.',
'C54':'renderLine exact (both directions); for meshes the skip test is sound for positive range_max. REFUTED for range_max = 0, which hides every mesh not around the sensor.',
'C55':'Real arithmetic, every pose; rigid poses for the skip test.',
'C72':'Real arithmetic; every history of sensor and mesh. Excluded: triangles whose slice falls in the exceptions of C53, and hits exactly on a triangle border. REFUTED without the first exception: the first beam misses a triangle in front of it that begins less than one increment before it (C72_refuted).',
'C73':'REFUTED: in a configuration with an empty angle interval setNumBeams changes only the count. C73_agree_partial: agreement in every valid configuration.',

'C56':'Real arithmetic. REFUTED for cameras with Tx or Ty other than 0 at depths other than 1 (the two functions place Tx differently). The exact result and the exact condition are the _partial theorems.',
'C57':'Every scalar type (reals and all doubles); any sequence of renderPixel calls and any map contents.',
'C58':'Every scalar type; any RenderResult subclass, including one that stops. Maps: proved for any sequence of images that do not get higher; REFUTED for a higher image (out-of-bounds write) and, for casts, for image coordinates beyond the range of int.',
'C59':'Real arithmetic; the code rounds the edge parameter to single precision.',
'C60':'REFUTED on doubles/floats: 0/0 slope for a row that starts and ends at the same x in (-1,0); the NaN is never replaced afterwards (C60_nan_stays). C106 gives the exact condition and shows that only the first column is affected.',
'C61':'Every scalar type.',
'C74':'REFUTED on floats: a negative depth. The partial theorem (reals) says exactly where the rendered depth is read: at most one pixel to the right, correct if the row reaches that far.',
'C75':'Real arithmetic. Exact for every triangle that has a corner with positive truncated x and one with positive truncated y, and off the first row and column for all; REFUTED for triangles confined to the first column or row.',
'C76':'Real arithmetic.',
'C77':'Real arithmetic. Completeness is stated for the triangles left by near-plane clipping (C59) and off the first row and column (C75).',
'C65':'Every scalar type for the structure (which vertices and triangles, in which order); placement and merging distance over the reals. The parsed scene is an input (assimp is external).',
'C66':'Real arithmetic for rotations; lossless parts for every scalar type; Point32 rounding on doubles/floats.',
'C67':'REFUTED for a message that already has vertices: the new triangles then index the old vertices. Exact for an empty message.',
'C69':'image_geometry is external and modelled by its contract. REFUTED for a message with a region of interest (not reset by convert), for distortion parameters left in the message (kept by resize(5, 0)), and for cameras taken from a binned message; proved for every other message.',
'C70':'REFUTED: names shorter than three characters throw, unknown extensions ending in x select the x format, a dot is not required, upper case extensions are not recognised. Exact for known lower-case extensions.',
'C78':'Every scalar type for the dispatch; the Collada rule over the reals (root rotation times positive scale).',
'C79':'Real arithmetic (the exporter writes floats, the importer reads what was written; the file format in between is assumed lossless).',
'C68':'REFUTED for cold caches: a data race for every shape (C68_race_refuted) and, even with atomic sequentially consistent accesses, wrong radii, duplicated triangles and wrong contains answers. Proved for warm caches (every query asked once before, radius not zero), any number of threads and any schedule; getBoundingBox answers are right even when cold (with a race).',
'C80':'Pointer-level model with explicit allocation, refined to the value model for every scalar type. Self assignment included; assignment between different octrees is C81. C80_safe leaves out getMesh/getBoundingBox because vertex merging has undefined integer conversions of its own (C80_refines covers them).',
'C81':'REFUTED: neither class declares a copy assignment, so the node pointer is copied. Double free proved for every prior program and both destruction orders; aliasing shown on a concrete run.',
'C82':'Refinement, safety and the exact number of blocks held proved for all programs without assignment. REFUTED: HeightMapNode has a defaulted destructor, so all nodes but the root are leaked; C82_no_leak_iff gives the exact condition.',
'C83':'Real arithmetic, through the surface theorem of C71. imread, atof and the exporter are inputs of the model.',
'C84':'REFUTED: the argument counts are off by one, so the last one or two documented arguments are ignored (for every scalar type), and a failed write is reported as success with exit code 0. With one extra argument the documented surface is produced (C84_shape_partial).',
'C85':'Doubles (Flocq binary64), worst-case bounds, no assumption on signs or cancellation.',
'C86':'Doubles (Flocq binary64). REFUTED without the range of lengths: the squared length of a tiny nonzero quaternion underflows and the matrix is not finite.',
'C87':'Real arithmetic, points in general position (the tolerances of the code are part of that condition). C35 refutes the statement for other points.',
'C88':'Real arithmetic, points in general position. The hypotheses of C87 are proved for the generated meshes.',
'C89':'Real arithmetic, rigid sensor poses; C85 bounds the rounding of the pose product.',
'C90':'Every scalar type; the inverse for reals and doubles (Flocq binary64).',
'C91':'Doubles (Flocq binary64). Rays are not covered (C44/C45 are over the reals). C91_bound_needed shows that the upper bound on the side is needed: with a resolution of 2^21 the tolerance of 1e-10 is rounded away and cells one level too fine are stored.',
'C92':'Every scalar type and every RenderResult, modelled as a state with a callback and a flag.',
'C93':'Real arithmetic. The number of images and the key handling are proved. REFUTED for what they show: the camera is half a radius from the origin, inside of every cube-like object, and back faces are culled: all images are black (C93_blank for every object around that sphere, C93_box for boxes).',
'C94':'Real arithmetic; file readers are parameters (C18-C21, C78 describe them). REFUTED for shapes with a radius of at most 2.5 cm, which lie in front of the near plane at 10 cm: all images are black (C94_small). The grey values are those of C74: exact up to one pixel.',
'C95':'Memory of scalar cells with one cell per component; operands are the same object or disjoint, as C++ objects of one class are. Every scalar type for the in-place operations and element access, Flocq binary64 for comparisons of copies, reals for linearity.',
'C96':'Real arithmetic; C96_window for every scalar type.',
'C97':'Every scalar type; C97_bbox on reals. Shapes are values (a composite holds clones); a call on an index that does not exist, or addShape on a shape that is no composite, is not a C++ program and is UB in the model.',
'C98':'Flocq binary64 with slab parameters rounded to binary32. C24 refutes the claim for directions with a component below 1e-9.',
'C101':'Flocq binary64. C101_refuted: a box one ulp thin whose rounded centre is its upper face misses every small ball around a point of that face (which contains() accepts); C101_complete_partial excludes only points exactly on the upper face of an axis of extent below about 8 ulp.',
'C102':'Flocq binary64. REFUTED for the int version, which truncates: with the camera of the viewers pixel (12,100) at depth 1 comes back as (11,100). C102_int_partial: the result is the pixel or its neighbour towards zero, nothing else; C102_int_iff_partial: exactly when it is the pixel. Cameras with Tx or Ty other than 0 fail already on reals (C56).',
'C103':'Flocq binary64; carries the displacement bounds of C15 and C65 over to the arithmetic of the code. C103_rounds_up: 4.35 has key 4350 although the double is below 4.35.',
'C107':'int overflow and division by zero are undefined values that propagate; an unwritten element is a separate value that propagates. int is 32 bits.',
'C122':'Holds for every mesh with valid indices, without assumptions on the coordinates.',
'C121':'Edges and corners only; the interior of a face on doubles is not covered (C33 covers it on reals).',
'C120':'Uninitialised storage is an oracle; the theorem compares every oracle with a run on cells that record initialisation.',
'C119':'Doubles; the margin theorem shows that no claim without a margin can hold.',
'C118':'Doubles; mixed forward and backward error, because a triangle that touches the plane may be cut or not. Rendering one line on doubles is C109.',
'C117':'Doubles; the bounds degrade with the quality k of the triangle, and the sliver theorem shows that they must.',
'C116':'Beside the accuracy contract s_libm the library has to return pi on the negative axis and 0 at the origin for a positive zero (s_libm0); both hold of the correctly rounded library of the example.',
'C115':'Doubles. Coordinates and translations bounded so that nothing overflows; the exact history the drift is measured against is the same code on reals, whose meaning is C27.',
'C114':'Doubles and floats. Boxes as leaves, nested to any depth; directions with a component below 2e-9 in some frame are left out (C25/C44 show what the code does there).',
'C113':'Real arithmetic; exactly coplanar triangles (the code also takes the branch within 1e-16). C113_outside_accepted shows the accepted outside point.',
'C112':'States the exact behaviour; integer rotations are not preserved in general (C112_quarter_turn_lost, C112_rpy_not_rotation).',
'C111':'Rays through composites on doubles are not covered; boxes are the only leaves.',
'C110':'How the stream formats one number is a parameter; field widths and failing streams are not represented.',
'C109':'sin, cos and atan2 are any functions meeting the accuracy contract of C108. Lines are drawn without a maximum range, end points off the negative x axis and off the beams; the error bounds are not tight.',
'C108':'sin, cos and atan2 are any functions meeting the accuracy contract; the contract says nothing about points on the negative x axis, where the sign of zero decides. The error bounds are not tight.',
'C106':'Flocq binary64 and binary32. NaN coordinates make the conversion to int undefined (Coq outcome UB), so they do not reach the image.',
'C105':'Flocq binary64 with slab parameters rounded to binary32; heights and coordinates up to 1e20, resolution up to 1e9. C105_margin needs a direction without components below 1e-9 (C24).',
'C104':'Flocq binary64; the error bounds are not tight. getRPY on doubles is covered by C108.',
'C100':'Real arithmetic. Segments that touch a corner from outside are excluded (s_off_corners): C35_corner_refuted shows that the answer then depends on the order of the triangles.',
'C99':'Flocq binary64, round to nearest. Points within rounding distance of a decision of the test are excluded by s_robust and s_off_sphere.',
}
