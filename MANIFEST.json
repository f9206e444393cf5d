{
 "claims": [
  {
   "property": "C01",
   "status": "proved",
   "theorems": [
    "C01_inverse",
    "C01_inverse_apply"
   ],
   "note": "Real arithmetic; rounding not covered."
  },
  {
   "property": "C02",
   "status": "proved",
   "theorems": [
    "C02_compose_apply",
    "C02_monoid",
    "C02_apply_meaning",
    "C02_identity_apply",
    "C02_inverseTimes",
    "C02_rigid_closed"
   ],
   "note": "Real arithmetic; rounding not covered."
  },
  {
   "property": "C03",
   "status": "proved",
   "theorems": [
    "C03_rpy_is_rotation",
    "C03_rpy_meaning",
    "C03_constructor"
   ],
   "note": "Real arithmetic; rounding not covered."
  },
  {
   "property": "C04",
   "status": "partial",
   "theorems": [
    "C04_angles_recovered",
    "C04_rebuild_partial",
    "C04_singular_minus",
    "C04_rebuild_refuted"
   ],
   "note": "REFUTED as stated at pitch = -pi/2 (the singularity test only looks at +pi/2): C04_rebuild_refuted, exact characterisation in C04_singular_minus. C04_rebuild_partial covers every other rotation except the open 1e-12 band below +pi/2, where getRPY deliberately approximates."
  },
  {
   "property": "C05",
   "status": "proved",
   "theorems": [
    "C05_set_is_rotation",
    "C05_scale_invariant",
    "C05_conjugation"
   ],
   "note": "Real arithmetic."
  },
  {
   "property": "C06",
   "status": "proved",
   "theorems": [
    "C06_matrix_to_quaternion",
    "C06_quaternion_to_matrix",
    "C06_getQuaternion"
   ],
   "note": "Real arithmetic; all four branches."
  },
  {
   "property": "C07",
   "status": "proved",
   "theorems": [
    "C07_normalized_columns",
    "C07_normalize_in_place",
    "C07_strip_scale"
   ],
   "note": "Real arithmetic."
  },
  {
   "property": "C08",
   "status": "proved",
   "theorems": [
    "C08_isometry",
    "C08_dot_preserved",
    "C08_cross_preserved",
    "C08_length_preserved"
   ],
   "note": "Real arithmetic."
  },
  {
   "property": "C09",
   "status": "proved",
   "theorems": [
    "C09_2d_compose",
    "C09_2d_inverse",
    "C09_2d_inverseTimes",
    "C09_2d_yaw",
    "C09_2d_yaw_inverse",
    "C09_2d_constructor",
    "C09_project"
   ],
   "note": "Real arithmetic."
  },
  {
   "property": "C10",
   "status": "proved",
   "theorems": [
    "C10_cross",
    "C10_lengths",
    "C10_normalized",
    "C10_vector_space",
    "C10_matrix_linear",
    "C10_plane_vectors"
   ],
   "note": "Real arithmetic."
  },
  {
   "property": "C11",
   "status": "proved",
   "theorems": [
    "C11_index_stability",
    "C11_points_only_grow",
    "C11_contents",
    "C11_size"
   ],
   "note": "Every scalar type."
  },
  {
   "property": "C12",
   "status": "proved",
   "theorems": [
    "C12_radius_fresh",
    "C12_triangles_fresh",
    "C12_doubles"
   ],
   "note": "Every scalar type with IEEE-like comparisons (reals and all doubles incl. NaN)."
  },
  {
   "property": "C13",
   "status": "proved",
   "theorems": [
    "C13_add",
    "C13_valid",
    "C13_wraps"
   ],
   "note": "Every scalar type; the 2^32 bound is shown to be needed (C13_wraps)."
  },
  {
   "property": "C14",
   "status": "proved",
   "theorems": [
    "C14_transformed",
    "C14_radius",
    "C14_compose",
    "C14_rigid_keeps_shape",
    "C14_inverse"
   ],
   "note": "Data movement for every scalar type; composition and rigidity over the reals."
  },
  {
   "property": "C15",
   "status": "proved",
   "theorems": [
    "C15_filter",
    "C15_distinct_keys",
    "C15_idempotent",
    "C15_key_meaning",
    "C15_displacement",
    "C15_zero_cell_tight"
   ],
   "note": "Exact behaviour for every scalar type; key meaning and displacement over the reals."
  },
  {
   "property": "C16",
   "status": "proved",
   "theorems": [
    "C16_radius"
   ],
   "note": "Real arithmetic."
  },
  {
   "property": "C17",
   "status": "proved",
   "theorems": [
    "C17_normal",
    "C17_area",
    "C17_area_method"
   ],
   "note": "Real arithmetic."
  },
  {
   "property": "C18",
   "status": "proved",
   "theorems": [
    "C18_roundtrip",
    "C18_roundtrip_file",
    "C18_size"
   ],
   "note": "Byte-level model of the stream operators; every stored mesh, bit patterns of doubles opaque."
  },
  {
   "property": "C19",
   "status": "partial",
   "theorems": [
    "C19_overrun_refuted",
    "C19_dispatch_partial",
    "C19_dispatch_refuted",
    "C19_registry"
   ],
   "note": "Truncated or failed streams: what the reader actually returns is characterised; the claim as stated is refuted."
  },
  {
   "property": "C20",
   "status": "partial",
   "theorems": [
    "C20_cut_anywhere",
    "C20_stream_state_partial",
    "C20_cut_file_accepted_refuted",
    "C20_missing",
    "C20_missing_refuted",
    "C20_refuted"
   ],
   "note": "See the _partial and _refuted theorems."
  },
  {
   "property": "C21",
   "status": "partial",
   "theorems": [
    "C21_refuted",
    "C21_written_partial"
   ],
   "note": "REFUTED: indices are not checked on reading; only streams written from index-valid meshes are safe."
  },
  {
   "property": "C22",
   "status": "proved",
   "theorems": [
    "C22_contains",
    "C22_contains_real",
    "C22_doubles"
   ],
   "note": "Every double including NaN/infinities, and the reals."
  },
  {
   "property": "C23",
   "status": "proved",
   "theorems": [
    "C23_ray_box"
   ],
   "note": "Real arithmetic (the float narrowing nf32 is the identity over the reals)."
  },
  {
   "property": "C24",
   "status": "partial",
   "theorems": [
    "C24_miss_refuted",
    "C24_false_hit_refuted",
    "C24_forward_partial"
   ],
   "note": "REFUTED in both directions; C24_forward_partial characterises the forward case: such rays never hit."
  },
  {
   "property": "C25",
   "status": "partial",
   "theorems": [
    "C25_partial",
    "C25_actual",
    "C25_miss_refuted",
    "C25_false_hit_refuted"
   ],
   "note": "REFUTED: the z test uses the y centre. C25_actual is the exact decision; C25_partial covers boxes whose y and z centres agree."
  },
  {
   "property": "C26",
   "status": "proved",
   "theorems": [
    "C26_ball",
    "C26_point"
   ],
   "note": "Real arithmetic."
  },
  {
   "property": "C27",
   "status": "proved",
   "theorems": [
    "C27_enclose",
    "C27_ordered"
   ],
   "note": "Real arithmetic; arbitrary affine poses and histories."
  },
  {
   "property": "C28",
   "status": "partial",
   "theorems": [
    "C28_constructor_partial",
    "C28_enclose_refuted",
    "C28_history_partial"
   ],
   "note": "Holds for freshly constructed boxes (C28_constructor_partial); REFUTED after enclose, which appends to the old mesh."
  },
  {
   "property": "C29",
   "status": "partial",
   "theorems": [
    "C29_attained",
    "C29_bound_partial",
    "C29_refuted"
   ],
   "note": "REFUTED; C29_bound_partial is the exact condition (iff)."
  },
  {
   "property": "C30",
   "status": "proved",
   "theorems": [
    "C30_contains",
    "C30_tight",
    "C30_smallest_real",
    "C30_nan_forgets"
   ],
   "note": "Every double and the reals; NaN behaviour in C30_nan_forgets."
  },
  {
   "property": "C31",
   "status": "proved",
   "theorems": [
    "C31_fresh",
    "C31_current"
   ],
   "note": "Every scalar type."
  },
  {
   "property": "C32",
   "status": "partial",
   "theorems": [
    "C32_frozen",
    "C32_stale_refuted",
    "C32_first_query_partial"
   ],
   "note": "REFUTED: a box once computed is returned for ever (C32_frozen, every scalar type; C32_stale_refuted on doubles). C32_first_query_partial: the first query encloses every cube up to the 2 mm vertex merge and lies inside every box enclosing the cubes."
  },
  {
   "property": "C33",
   "status": "partial",
   "theorems": [
    "C33_sound",
    "C33_complete_partial",
    "C33_returns",
    "C33_back_refuted"
   ],
   "note": "Real arithmetic, meshes built by any operation sequence. Soundness for every mesh without degenerate triangles; completeness for balls that reach an edge or whose centre is not behind the triangle. REFUTED on doubles for balls that reach the inside of a triangle from behind: the foot of the perpendicular is computed on the wrong side."
  },
  {
   "property": "C34",
   "status": "proved",
   "theorems": [
    "C34_general",
    "C34_unique",
    "C34_far",
    "C34_on_triangle",
    "C34_returns"
   ],
   "note": "Real arithmetic for the counting; general position is spelled out in s_generic (the tolerances of the code). C34_returns for every scalar type."
  },
  {
   "property": "C35",
   "status": "partial",
   "theorems": [
    "C35_corner_refuted",
    "C35_convex_partial",
    "C35_box_partial",
    "C35_joined_partial",
    "C35_refuted"
   ],
   "note": "REFUTED on doubles for points outside the bounding box whose segment to the outside point passes through edges. Proved in general position: outside any convex set around the mesh (C35_convex_partial, C35_box_partial), and invariance along paths that meet no triangle (C35_joined_partial), which covers pockets and holes. C35_corner_refuted: for a segment that only touches a corner the answer depends on the order of the triangles. C100 covers segments exactly through edges."
  },
  {
   "property": "C36",
   "status": "proved",
   "theorems": [
    "C36_region",
    "C36_union"
   ],
   "note": "Real arithmetic; arbitrary trees of boxes and composites with rigid poses, fewer than 2^32 mesh vertices."
  },
  {
   "property": "C37",
   "status": "proved",
   "theorems": [
    "C37_nearest",
    "C37_first_point"
   ],
   "note": "Real arithmetic; arbitrary trees; rays with no near-zero direction component in any frame of the tree (the box slab test is unreliable otherwise, see C24)."
  },
  {
   "property": "C38",
   "status": "proved",
   "theorems": [
    "C38_ball"
   ],
   "note": "Real arithmetic; arbitrary trees."
  },
  {
   "property": "C39",
   "status": "proved",
   "theorems": [
    "C39_bookkeeping"
   ],
   "note": "Real arithmetic; children with arbitrary well-formed meshes; tightness for corners within 1e10, as the code initialises its running bounds with +-1e10."
  },
  {
   "property": "C40",
   "status": "proved",
   "theorems": [
    "C40_new",
    "C40_set",
    "C40_any",
    "C40_not_positive"
   ],
   "note": "Real arithmetic. A request that is not positive never returns (C40_not_positive)."
  },
  {
   "property": "C41",
   "status": "proved",
   "theorems": [
    "C41_cells",
    "C41_appends",
    "C41_disjoint",
    "C41_radius",
    "C41_returns",
    "C41_fixed"
   ],
   "note": "Real arithmetic; histories of adds, clears, resolution changes, setMesh, copies and queries (C41_cells), uniqueness and placement of cubes for every reachable octree, return of every history. One cube per cell (C41_fixed) for resolutions of at least 1e-10, the tolerance used by add."
  },
  {
   "property": "C42",
   "status": "partial",
   "theorems": [
    "C42_exact",
    "C42_ladder_partial",
    "C42_two_levels_partial",
    "C42_missed_refuted",
    "C42_phantom_refuted"
   ],
   "note": "REFUTED both ways on doubles (a point just added is not found, a point in an empty cell is found): contains descends without subtracting the child offset. C42_exact is the exact behaviour for every reachable octree; the claim holds on a ladder of cells and for at most two cells per axis."
  },
  {
   "property": "C43",
   "status": "proved",
   "theorems": [
    "C43_overlap"
   ],
   "note": "Real arithmetic; every reachable octree, every ordered box."
  },
  {
   "property": "C44",
   "status": "partial",
   "theorems": [
    "C44_ray_partial",
    "C44_parallel_never_hits",
    "C44_parallel_refuted",
    "C44_limit_refuted",
    "C44_distance_refuted",
    "C44_returns_refuted"
   ],
   "note": "REFUTED: t1 is not a limit, a hit in the first cell leaves distance unset, rays parallel to an axis never hit, and on doubles the call may never return. C44_ray_partial: over the reals it returns, hits are real, and misses skip only chords of at most a tenth of the resolution."
  },
  {
   "property": "C45",
   "status": "proved",
   "theorems": [
    "C45_raytrace",
    "C45_may_not_return"
   ],
   "note": "Real arithmetic; every ray, t0 and t1, every reachable octree. The end point is clamped into the octree. On doubles the call may never return (C45_may_not_return)."
  },
  {
   "property": "C46",
   "status": "partial",
   "theorems": [
    "C46_copy",
    "C46_mesh_current",
    "C46_mesh_content",
    "C46_empty_refuted",
    "C46_setMesh_ignored"
   ],
   "note": "Copies and mesh currency for every scalar type; mesh content over the reals for sides up to 4e6 (int conversion in the vertex merge). REFUTED for emptiness: empty() reads a base-class mesh that is never filled."
  },
  {
   "property": "C47",
   "status": "proved",
   "theorems": [
    "C47_hit",
    "C47_returns",
    "C47_malformed",
    "C47_default_never_hits",
    "C47_copy"
   ],
   "note": "Real arithmetic, exact iff for every rectangular grid with a vertex count within unsigned int. Grids accepted (C47_returns), malformed grids are undefined behaviour (C47_malformed, every scalar type)."
  },
  {
   "property": "C48",
   "status": "partial",
   "theorems": [
    "C48_some_column_partial",
    "C48_inside_partial",
    "C48_nearest_refuted"
   ],
   "note": "REFUTED on doubles: children are visited in a fixed order. Proved: the reported distance is the entry of some hit column, and of the nearest one when the ray starts inside a column."
  },
  {
   "property": "C49",
   "status": "partial",
   "theorems": [
    "C49_tops_partial",
    "C49_overlap_refuted"
   ],
   "note": "REFUTED on doubles for \"no cell is covered twice\". Proved over the reals: coverage, heights and corners up to the documented vertex merging."
  },
  {
   "property": "C50",
   "status": "proved",
   "theorems": [
    "C50_parameters",
    "C50_table",
    "C50_returns"
   ],
   "note": "Real arithmetic; every history of setters that ends in a valid configuration."
  },
  {
   "property": "C51",
   "status": "partial",
   "theorems": [
    "C51_partial",
    "C51_point",
    "C51_refuted"
   ],
   "note": "REFUTED for angles less than one increment before the first beam (the index is truncated towards zero). C51_partial is the exact value for every other angle."
  },
  {
   "property": "C52",
   "status": "proved",
   "theorems": [
    "C52_nearest",
    "C52_untouched",
    "C52_order",
    "C52_bounds"
   ],
   "note": "Every scalar type with IEEE-like comparisons (reals and all doubles, incl. NaN)."
  },
  {
   "property": "C53",
   "status": "partial",
   "theorems": [
    "C53_partial",
    "C53_beams",
    "C53_null",
    "C53_gap_refuted",
    "C53_cull_refuted"
   ],
   "note": "Real arithmetic. REFUTED for end points in the gap before the first beam (C53_gap_refuted) and for nearly opposite end points, which are culled (C53_cull_refuted). C53_partial covers every other segment, exactly."
  },
  {
   "property": "C54",
   "status": "partial",
   "theorems": [
    "C54_line_far",
    "C54_line_near",
    "C54_mesh",
    "C54_zero_refuted"
   ],
   "note": "renderLine exact (both directions); for meshes the skip test is sound for positive range_max. REFUTED for range_max = 0, which hides every mesh not around the sensor."
  },
  {
   "property": "C55",
   "status": "proved",
   "theorems": [
    "C55_slice",
    "C55_unique",
    "C55_reversed",
    "C55_hits",
    "C55_render"
   ],
   "note": "Real arithmetic, every pose; rigid poses for the skip test."
  },
  {
   "property": "C56",
   "status": "partial",
   "theorems": [
    "C56_round_trip_partial",
    "C56_round_trip_iff_partial",
    "C56_refuted",
    "C56_injective"
   ],
   "note": "Real arithmetic. REFUTED for cameras with Tx or Ty other than 0 at depths other than 1 (the two functions place Tx differently). The exact result and the exact condition are the _partial theorems."
  },
  {
   "property": "C57",
   "status": "proved",
   "theorems": [
    "C57_zbuffer",
    "C57_untouched",
    "C57_order",
    "C57_rasterize",
    "C57_order_real"
   ],
   "note": "Every scalar type (reals and all doubles); any sequence of renderPixel calls and any map contents."
  },
  {
   "property": "C58",
   "status": "partial",
   "theorems": [
    "C58_inside",
    "C58_index",
    "C58_maps_partial",
    "C58_refuted",
    "C58_cast_refuted"
   ],
   "note": "Every scalar type; any RenderResult subclass, including one that stops. Maps: proved for any sequence of images that do not get higher; REFUTED for a higher image (out-of-bounds write) and, for casts, for image coordinates beyond the range of int."
  },
  {
   "property": "C59",
   "status": "proved",
   "theorems": [
    "C59_cover",
    "C59_none",
    "C59_orientation",
    "C59_orientation_weak",
    "C59_behind"
   ],
   "note": "Real arithmetic; the code rounds the edge parameter to single precision."
  },
  {
   "property": "C60",
   "status": "partial",
   "theorems": [
    "C60_refuted",
    "C60_nan_stays",
    "C60_first_pixel_partial"
   ],
   "note": "REFUTED on doubles/floats: 0/0 slope for a row that starts and ends at the same x in (-1,0); the NaN is never replaced afterwards (C60_nan_stays). C106 gives the exact condition and shows that only the first column is affected."
  },
  {
   "property": "C61",
   "status": "proved",
   "theorems": [
    "C61_permutes",
    "C61_sorts",
    "C61_divisor"
   ],
   "note": "Every scalar type."
  },
  {
   "property": "C62",
   "status": "proved",
   "theorems": [
    "C62_cylinder",
    "C62_polygon"
   ],
   "note": "Every scalar type; up to 2^31 (cylinder) or 2^30 (polygon) corners, so that indices fit their types."
  },
  {
   "property": "C63",
   "status": "proved",
   "theorems": [
    "C63_polygon",
    "C63_cylinder"
   ],
   "note": "Real arithmetic. Volume = height x area, and every vertex lies behind every triangle for clockwise convex input."
  },
  {
   "property": "C64",
   "status": "partial",
   "theorems": [
    "C64_cylinder",
    "C64_cylinder_zero_refuted",
    "C64_polygon_empty_refuted",
    "C64_polygon_partial"
   ],
   "note": "REFUTED for the polygon: an empty list never returns. The cylinder returns for every unsigned count, but with 0 corners has 2^33 - 4 dangling triangles."
  },
  {
   "property": "C65",
   "status": "proved",
   "theorems": [
    "C65_import",
    "C65_valid",
    "C65_placement",
    "C65_key",
    "C65_merge_error"
   ],
   "note": "Every scalar type for the structure (which vertices and triangles, in which order); placement and merging distance over the reals. The parsed scene is an input (assimp is external)."
  },
  {
   "property": "C66",
   "status": "proved",
   "theorems": [
    "C66_pose_round_trip",
    "C66_message_meaning",
    "C66_message_round_trip",
    "C66_lossless",
    "C66_point32"
   ],
   "note": "Real arithmetic for rotations; lossless parts for every scalar type; Point32 rounding on doubles/floats."
  },
  {
   "property": "C67",
   "status": "partial",
   "theorems": [
    "C67_fresh_message_partial",
    "C67_appends",
    "C67_refuted"
   ],
   "note": "REFUTED for a message that already has vertices: the new triangles then index the old vertices. Exact for an empty message."
  },
  {
   "property": "C68",
   "status": "partial",
   "theorems": [
    "C68_sequential",
    "C68_warm_partial",
    "C68_warm_up",
    "C68_bounding_box_partial",
    "C68_wait_free",
    "C68_race_refuted",
    "C68_radius_refuted",
    "C68_triangles_refuted",
    "C68_contains_refuted"
   ],
   "note": "REFUTED for cold caches: a data race for every shape (C68_race_refuted) and, even with atomic sequentially consistent accesses, wrong radii, duplicated triangles and wrong contains answers. Proved for warm caches (every query asked once before, radius not zero), any number of threads and any schedule; getBoundingBox answers are right even when cold (with a race)."
  },
  {
   "property": "C69",
   "status": "partial",
   "theorems": [
    "C69_reports",
    "C69_round_trip_partial",
    "C69_message",
    "C69_distortion_refuted",
    "C69_refuted",
    "C69_binning_refuted",
    "C69_window"
   ],
   "note": "image_geometry is external and modelled by its contract. REFUTED for a message with a region of interest (not reset by convert), for distortion parameters left in the message (kept by resize(5, 0)), and for cameras taken from a binned message; proved for every other message."
  },
  {
   "property": "C70",
   "status": "partial",
   "theorems": [
    "C70_given_format",
    "C70_extension_partial",
    "C70_selected_partial",
    "C70_short_names",
    "C70_refuted"
   ],
   "note": "REFUTED: names shorter than three characters throw, unknown extensions ending in x select the x format, a dot is not required, upper case extensions are not recognised. Exact for known lower-case extensions."
  },
  {
   "property": "C71",
   "status": "proved",
   "theorems": [
    "C71_surface"
   ],
   "note": "Real arithmetic, exact triangle soup. The mesh has no bottom faces."
  },
  {
   "property": "C72",
   "status": "partial",
   "theorems": [
    "C72_scan_partial",
    "C72_refuted"
   ],
   "note": "Real arithmetic; every history of sensor and mesh. Excluded: triangles whose slice falls in the exceptions of C53, and hits exactly on a triangle border. REFUTED without the first exception: the first beam misses a triangle in front of it that begins less than one increment before it (C72_refuted)."
  },
  {
   "property": "C73",
   "status": "partial",
   "theorems": [
    "C73_agree_partial",
    "C73_refuted"
   ],
   "note": "REFUTED: in a configuration with an empty angle interval setNumBeams changes only the count. C73_agree_partial: agreement in every valid configuration."
  },
  {
   "property": "C74",
   "status": "partial",
   "theorems": [
    "C74_refuted",
    "C74_depth_partial"
   ],
   "note": "REFUTED on floats: a negative depth. The partial theorem (reals) says exactly where the rendered depth is read: at most one pixel to the right, correct if the row reaches that far."
  },
  {
   "property": "C75",
   "status": "partial",
   "theorems": [
    "C75_footprint_partial",
    "C75_refuted"
   ],
   "note": "Real arithmetic. Exact for every triangle that has a corner with positive truncated x and one with positive truncated y, and off the first row and column for all; REFUTED for triangles confined to the first column or row."
  },
  {
   "property": "C76",
   "status": "proved",
   "theorems": [
    "C76_perspective",
    "C76_culling"
   ],
   "note": "Real arithmetic."
  },
  {
   "property": "C77",
   "status": "proved",
   "theorems": [
    "C77_render"
   ],
   "note": "Real arithmetic. Completeness is stated for the triangles left by near-plane clipping (C59) and off the first row and column (C75)."
  },
  {
   "property": "C78",
   "status": "proved",
   "theorems": [
    "C78_dispatch",
    "C78_collada"
   ],
   "note": "Every scalar type for the dispatch; the Collada rule over the reals (root rotation times positive scale)."
  },
  {
   "property": "C79",
   "status": "proved",
   "theorems": [
    "C79_round_trip",
    "C79_exact"
   ],
   "note": "Real arithmetic (the exporter writes floats, the importer reads what was written; the file format in between is assumed lossless)."
  },
  {
   "property": "C80",
   "status": "proved",
   "theorems": [
    "C80_refines",
    "C80_safe",
    "C80_isolated"
   ],
   "note": "Pointer-level model with explicit allocation, refined to the value model for every scalar type. Self assignment included; assignment between different octrees is C81. C80_safe leaves out getMesh/getBoundingBox because vertex merging has undefined integer conversions of its own (C80_refines covers them)."
  },
  {
   "property": "C81",
   "status": "partial",
   "theorems": [
    "C81_double_free",
    "C81_alias_refuted",
    "C81_scope_refuted",
    "C81_heightmap"
   ],
   "note": "REFUTED: neither class declares a copy assignment, so the node pointer is copied. Double free proved for every prior program and both destruction orders; aliasing shown on a concrete run."
  },
  {
   "property": "C82",
   "status": "partial",
   "theorems": [
    "C82_refines",
    "C82_no_leak_iff",
    "C82_leak_refuted"
   ],
   "note": "Refinement, safety and the exact number of blocks held proved for all programs without assignment. REFUTED: HeightMapNode has a defaulted destructor, so all nodes but the root are leaked; C82_no_leak_iff gives the exact condition."
  },
  {
   "property": "C83",
   "status": "proved",
   "theorems": [
    "C83_file",
    "C83_pixels",
    "C83_errors"
   ],
   "note": "Real arithmetic, through the surface theorem of C71. imread, atof and the exporter are inputs of the model."
  },
  {
   "property": "C84",
   "status": "partial",
   "theorems": [
    "C84_shape_partial",
    "C84_last_ignored",
    "C84_origin_ignored",
    "C84_shape_refuted",
    "C84_exit_refuted"
   ],
   "note": "REFUTED: the argument counts are off by one, so the last one or two documented arguments are ignored (for every scalar type), and a failed write is reported as success with exit code 0. With one extra argument the documented surface is produced (C84_shape_partial)."
  },
  {
   "property": "C85",
   "status": "proved",
   "theorems": [
    "C85_apply",
    "C85_compose",
    "C85_inverse",
    "C85_round_trip"
   ],
   "note": "Doubles (Flocq binary64), worst-case bounds, no assumption on signs or cancellation."
  },
  {
   "property": "C86",
   "status": "partial",
   "theorems": [
    "C86_matrix",
    "C86_orthonormal",
    "C86_round_trip",
    "C86_length",
    "C86_normalized",
    "C86_quaternion_normalized",
    "C86_tiny_refuted"
   ],
   "note": "Doubles (Flocq binary64). REFUTED without the range of lengths: the squared length of a tiny nonzero quaternion underflows and the matrix is not finite."
  },
  {
   "property": "C87",
   "status": "proved",
   "theorems": [
    "C87_inside",
    "C87_exact",
    "C87_path"
   ],
   "note": "Real arithmetic, points in general position (the tolerances of the code are part of that condition). C35 refutes the statement for other points."
  },
  {
   "property": "C88",
   "status": "proved",
   "theorems": [
    "C88_polygon",
    "C88_cylinder"
   ],
   "note": "Real arithmetic, points in general position. The hypotheses of C87 are proved for the generated meshes."
  },
  {
   "property": "C89",
   "status": "proved",
   "theorems": [
    "C89_laser",
    "C89_camera",
    "C89_common_motion"
   ],
   "note": "Real arithmetic, rigid sensor poses; C85 bounds the rounding of the pose product."
  },
  {
   "property": "C90",
   "status": "proved",
   "theorems": [
    "C90_vector",
    "C90_product",
    "C90_rpy",
    "C90_parts",
    "C90_row_range",
    "C90_inverse",
    "C90_laws"
   ],
   "note": "Every scalar type; the inverse for reals and doubles (Flocq binary64)."
  },
  {
   "property": "C91",
   "status": "proved",
   "theorems": [
    "C91_resolution",
    "C91_follows",
    "C91_exact",
    "C91_points",
    "C91_returns",
    "C91_bound_needed"
   ],
   "note": "Doubles (Flocq binary64). Rays are not covered (C44/C45 are over the reals). C91_bound_needed shows that the upper bound on the side is needed: with a resolution of 2^21 the tolerance of 1e-10 is rounded away and cells one level too fine are stored."
  },
  {
   "property": "C92",
   "status": "proved",
   "theorems": [
    "C92_stop"
   ],
   "note": "Every scalar type and every RenderResult, modelled as a state with a callback and a flag."
  },
  {
   "property": "C93",
   "status": "partial",
   "theorems": [
    "C93_frames",
    "C93_image",
    "C93_blank",
    "C93_box",
    "C93_refuted"
   ],
   "note": "Real arithmetic. The number of images and the key handling are proved. REFUTED for what they show: the camera is half a radius from the origin, inside of every cube-like object, and back faces are culled: all images are black (C93_blank for every object around that sphere, C93_box for boxes)."
  },
  {
   "property": "C94",
   "status": "partial",
   "theorems": [
    "C94_image",
    "C94_view",
    "C94_frame",
    "C94_small",
    "C94_show",
    "C94_exit",
    "C94_small_refuted"
   ],
   "note": "Real arithmetic; file readers are parameters (C18-C21, C78 describe them). REFUTED for shapes with a radius of at most 2.5 cm, which lie in front of the near plane at 10 cm: all images are black (C94_small). The grey values are those of C74: exact up to one pixel."
  },
  {
   "property": "C95",
   "status": "proved",
   "theorems": [
    "C95_compound3",
    "C95_compound2",
    "C95_scalar",
    "C95_assign",
    "C95_parts",
    "C95_subscript",
    "C95_element2",
    "C95_element",
    "C95_element_out",
    "C95_copy_double",
    "C95_equal_real",
    "C95_matrix",
    "C95_matrix2",
    "C95_normalized",
    "C95_quaternion"
   ],
   "note": "Memory of scalar cells with one cell per component; operands are the same object or disjoint, as C++ objects of one class are. Every scalar type for the in-place operations and element access, Flocq binary64 for comparisons of copies, reals for linearity."
  },
  {
   "property": "C96",
   "status": "proved",
   "theorems": [
    "C96_points",
    "C96_back",
    "C96_surface",
    "C96_polar",
    "C96_window"
   ],
   "note": "Real arithmetic; C96_window for every scalar type."
  },
  {
   "property": "C97",
   "status": "proved",
   "theorems": [
    "C97_counts",
    "C97_others",
    "C97_rays",
    "C97_setMesh",
    "C97_bbox"
   ],
   "note": "Every scalar type; C97_bbox on reals. Shapes are values (a composite holds clones); a call on an index that does not exist, or addShape on a shape that is no composite, is not a C++ program and is UB in the model."
  },
  {
   "property": "C98",
   "status": "proved",
   "theorems": [
    "C98_ray",
    "C98_margin"
   ],
   "note": "Flocq binary64 with slab parameters rounded to binary32. C24 refutes the claim for directions with a component below 1e-9."
  },
  {
   "property": "C99",
   "status": "proved",
   "theorems": [
    "C99_radius",
    "C99_far",
    "C99_general",
    "C99_reals",
    "C99_convex"
   ],
   "note": "Flocq binary64, round to nearest. Points within rounding distance of a decision of the test are excluded by s_robust and s_off_sphere."
  },
  {
   "property": "C100",
   "status": "proved",
   "theorems": [
    "C100_edges",
    "C100_outside",
    "C100_inside",
    "C100_exact"
   ],
   "note": "Real arithmetic. Segments that touch a corner from outside are excluded (s_off_corners): C35_corner_refuted shows that the answer then depends on the order of the triangles."
  },
  {
   "property": "C101",
   "status": "partial",
   "theorems": [
    "C101_point",
    "C101_sound",
    "C101_complete_partial",
    "C101_refuted"
   ],
   "note": "Flocq binary64. C101_refuted: a box one ulp thin whose rounded centre is its upper face misses every small ball around a point of that face (which contains() accepts); C101_complete_partial excludes only points exactly on the upper face of an axis of extent below about 8 ulp."
  },
  {
   "property": "C102",
   "status": "partial",
   "theorems": [
    "C102_close",
    "C102_nearest",
    "C102_int_partial",
    "C102_int_iff_partial",
    "C102_refuted"
   ],
   "note": "Flocq binary64. REFUTED for the int version, which truncates: with the camera of the viewers pixel (12,100) at depth 1 comes back as (11,100). C102_int_partial: the result is the pixel or its neighbour towards zero, nothing else; C102_int_iff_partial: exactly when it is the pixel. Cameras with Tx or Ty other than 0 fail already on reals (C56)."
  },
  {
   "property": "C103",
   "status": "proved",
   "theorems": [
    "C103_key",
    "C103_defined",
    "C103_displacement",
    "C103_import"
   ],
   "note": "Flocq binary64; carries the displacement bounds of C15 and C65 over to the arithmetic of the code. C103_rounds_up: 4.35 has key 4350 although the double is below 4.35."
  },
  {
   "property": "C104",
   "status": "proved",
   "theorems": [
    "C104_quaternion",
    "C104_rotation",
    "C104_matrix",
    "C104_round_trip",
    "C104_drift"
   ],
   "note": "Flocq binary64; the error bounds are not tight. getRPY on doubles is covered by C108."
  },
  {
   "property": "C105",
   "status": "proved",
   "theorems": [
    "C105_nested",
    "C105_hit",
    "C105_margin"
   ],
   "note": "Flocq binary64 with slab parameters rounded to binary32; heights and coordinates up to 1e20, resolution up to 1e9. C105_margin needs a direction without components below 1e-9 (C24)."
  },
  {
   "property": "C106",
   "status": "proved",
   "theorems": [
    "C106_row",
    "C106_render",
    "C106_image",
    "C106_top"
   ],
   "note": "Flocq binary64 and binary32. NaN coordinates make the conversion to int undefined (Coq outcome UB), so they do not reach the image."
  },
  {
   "property": "C107",
   "status": "proved",
   "theorems": [
    "C107_int_exact",
    "C107_int_compose",
    "C107_int_bound",
    "C107_int_bound_sharp",
    "C107_int_inverse",
    "C107_int_length",
    "C107_int_normalized",
    "C107_unsigned",
    "C107_unsigned_transform",
    "C107_unsigned_all",
    "C107_default2",
    "C107_default3",
    "C107_default3_set",
    "C107_fill",
    "C107_array"
   ],
   "note": "int overflow and division by zero are undefined values that propagate; an unwritten element is a separate value that propagates. int is 32 bits."
  },
  {
   "property": "C108",
   "status": "proved",
   "theorems": [
    "C108_pi",
    "C108_rpy",
    "C108_apply",
    "C108_getRPY",
    "C108_round_trip",
    "C108_planar",
    "C108_cylinder"
   ],
   "note": "sin, cos and atan2 are any functions meeting the accuracy contract; the contract says nothing about points on the negative x axis, where the sign of zero decides. The error bounds are not tight."
  },
  {
   "property": "C109",
   "status": "proved",
   "theorems": [
    "C109_configured",
    "C109_table",
    "C109_index",
    "C109_index_point",
    "C109_point",
    "C109_line"
   ],
   "note": "sin, cos and atan2 are any functions meeting the accuracy contract of C108. Lines are drawn without a maximum range, end points off the negative x axis and off the beams; the error bounds are not tight."
  },
  {
   "property": "C110",
   "status": "proved",
   "theorems": [
    "C110_vectors",
    "C110_matrices",
    "C110_transforms",
    "C110_triangle",
    "C110_matrix_h",
    "C110_injective",
    "C110_indices"
   ],
   "note": "How the stream formats one number is a parameter; field widths and failing streams are not represented."
  },
  {
   "property": "C111",
   "status": "proved",
   "theorems": [
    "C111_contains",
    "C111_ball",
    "C111_point",
    "C111_margins",
    "C111_quaternion_pose"
   ],
   "note": "Rays through composites on doubles are not covered; boxes are the only leaves."
  },
  {
   "property": "C112",
   "status": "proved",
   "theorems": [
    "C112_get",
    "C112_get_axis",
    "C112_set",
    "C112_round_trip",
    "C112_quarter_turn_lost",
    "C112_get_unsigned",
    "C112_rpy",
    "C112_rpy_double",
    "C112_rpy_not_rotation",
    "C112_get_double"
   ],
   "note": "States the exact behaviour; integer rotations are not preserved in general (C112_quarter_turn_lost, C112_rpy_not_rotation)."
  },
  {
   "property": "C113",
   "status": "proved",
   "theorems": [
    "C113_accept",
    "C113_on_triangle",
    "C113_general",
    "C113_outside_accepted"
   ],
   "note": "Real arithmetic; exactly coplanar triangles (the code also takes the branch within 1e-16). C113_outside_accepted shows the accepted outside point."
  },
  {
   "property": "C114",
   "status": "proved",
   "theorems": [
    "C114_ray",
    "C114_region"
   ],
   "note": "Doubles and floats. Boxes as leaves, nested to any depth; directions with a component below 2e-9 in some frame are left out (C25/C44 show what the code does there)."
  },
  {
   "property": "C115",
   "status": "proved",
   "theorems": [
    "C115_enclose",
    "C115_history",
    "C115_chain",
    "C115_size",
    "C115_centre",
    "C115_radius"
   ],
   "note": "Doubles. Coordinates and translations bounded so that nothing overflows; the exact history the drift is measured against is the same code on reals, whose meaning is C27."
  },
  {
   "property": "C116",
   "status": "proved",
   "theorems": [
    "C116_getRPY",
    "C116_overflow",
    "C116_overflow_singular",
    "C116_rotations",
    "C116_gimbal",
    "C116_planar",
    "C116_quarters",
    "C116_unsigned"
   ],
   "note": "Beside the accuracy contract s_libm the library has to return pi on the negative axis and 0 at the origin for a positive zero (s_libm0); both hold of the correctly rounded library of the example."
  },
  {
   "property": "C117",
   "status": "proved",
   "theorems": [
    "C117_normal",
    "C117_area",
    "C117_degenerate",
    "C117_matrix",
    "C117_strip_scale",
    "C117_slivers"
   ],
   "note": "Doubles; the bounds degrade with the quality k of the triangle, and the sliver theorem shows that they must."
  },
  {
   "property": "C118",
   "status": "proved",
   "theorems": [
    "C118_slice",
    "C118_exact",
    "C118_rotate",
    "C118_watertight",
    "C118_render",
    "C118_tiny"
   ],
   "note": "Doubles; mixed forward and backward error, because a triangle that touches the plane may be cut or not. Rendering one line on doubles is C109."
  },
  {
   "property": "C119",
   "status": "proved",
   "theorems": [
    "C119_within",
    "C119_beyond",
    "C119_drawn",
    "C119_margin"
   ],
   "note": "Doubles; the margin theorem shows that no claim without a margin can hold."
  },
  {
   "property": "C120",
   "status": "proved",
   "theorems": [
    "C120_independent",
    "C120_rows",
    "C120_setters",
    "C120_origin",
    "C120_spread",
    "C120_garbage"
   ],
   "note": "Uninitialised storage is an oracle; the theorem compares every oracle with a run on cells that record initialisation."
  },
  {
   "property": "C121",
   "status": "proved",
   "theorems": [
    "C121_edges",
    "C121_far"
   ],
   "note": "Edges and corners only; the interior of a face on doubles is not covered (C33 covers it on reals)."
  },
  {
   "property": "C122",
   "status": "proved",
   "theorems": [
    "C122_contains",
    "C122_triangles",
    "C122_ball",
    "C122_radius"
   ],
   "note": "Holds for every mesh with valid indices, without assumptions on the coordinates."
  }
 ]
}