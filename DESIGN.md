# Formal model of geolib2 in Rocq

## 1. How the model is organised

The C++ code computes with `double` (and in a few places `float` and `int`).
Every numeric function is modelled **once**, polymorphically in a record of number
operations (`Num.v`), and instantiated twice:

* `R` (real numbers): ideal arithmetic.  Geometric and algebraic theorems
  (`C01`, `C23`, `C27`, ...) are proved here.  They say what the *formulas and
  control flow* of the code compute; rounding is covered separately (`C85`, `C86`).
* `F64`, IEEE-754 binary64 as formalised by Flocq (`binary_float 53 1024`,
  round to nearest even).  Properties that only depend on comparisons and data movement
  (`C12`, `C22`, `C30`, `C52`, `C57` ...) are proved for every double, and
  refutations that hinge on rounding or NaN are computed here.

Undefined behaviour, exceptions and non-termination are explicit outcomes
(`Outcome.v`): `Ret`, `Exn`, `UB`, and `Fuel` (iteration budget exhausted; a
function "terminates" when some fuel gives a different outcome, and
"diverges" when every fuel gives `Fuel`).

Layers: model files (definitions only, each citing `/repo` lines), `Spec.v`
(independent vocabulary: rotation, segment, convex hull, half-open cell, closed
surface ...), `P_*.v` (lemmas), `Props_*.v` (the property theorems, each next to an
`Example` showing its hypotheses are satisfiable, and `Print Assumptions`).

Naming: `Cnn_...` = theorem for property Cnn. `_partial` = only part of the property is
proved (the comment says what is missing).  `_refuted` = the property is false of the
faithful model, a concrete witness is given.

### Checking the transcription

`Conformance.v` evaluates in the double instance every assertion of `test/test_box.cpp`, `test/test_shape.cpp` and
`test/test_composite_shape.cpp`. `ConformanceLRF.v` proves over the reals the index look-up assertions of
`test/test_lrf.cpp` (TestLRF2 getAngleUpperIndexAngle and TestLRF getAngleUpperIndexUnitCircle). Both are `Example`s:
tests of the transcription, not claims. The `renderLine` assertions of `test_lrf.cpp` and the printing programs
(`test_geolib*.cpp`, `test_matrix.cpp`, which has random inputs) are not replayed.

## 2. Properties: where they live and how they are proved

The result of each property (proved, proved in part, refuted, with the exact scope) is in the notes of
`MANIFEST.json`; the table says which files hold the model and the theorems and what the proofs rest on.

| id | model | theorems | proof method |
|----|-------|----------|--------------|
| C01-C03, C05, C07-C10 | `MathTypes.v` | `Props_Math.v` | algebra over R (ring, field, nsatz) |
| C04, C06 | `MathTypes.v`, `Trig` of `Num.v` | `Props_Math.v` | atan2 on R (`P_Trig.v`), case analysis of the branches (`P_Rot.v`); C04 refuted at pitch -pi/2 |
| C11-C17 | `Mesh.v`: points, triangles, caches as a state machine | `Props_Mesh.v` | invariants over all operation histories, induction over lists; `P_MeshFilter.v` for vertex merging |
| C18-C21 | `Serial.v`: byte streams with a fail flag | `Props_Serial.v` | induction over point and triangle lists; C19-C21 refuted in part |
| C22-C31 | `Box.v` | `Props_Box.v` | interval arguments over R; order-only arguments for every scalar type (`P_BBox.v`); C24, C25, C28, C29 refuted in part |
| C33-C35 | `ShapeQuery.v` | `Props_Query.v` | crossing numbers of closed surfaces, parity along paths (`P_Query2.v`, `P_Query3.v`) |
| C36-C39 | `Composite.v` | `Props_Composite.v` | induction over trees of shapes |
| C32, C40-C46 | `Octree.v` | `Props_Octree.v` | occupied paths of the tree, grid cells, invariants over histories, measure for ray marching |
| C47-C49, C71 | `HeightMap.v` | `Props_Height.v` | quad-tree induction, run-length loops as folds |
| C50-C55, C72, C73 | `Laser.v` | `Props_Laser.v` | setter histories, trigonometry over R, plane slicing |
| C56-C61, C74-C77 | `Depth.v` | `Props_Depth.v` | z-buffer for every scalar type; rasteriser loops as folds, footprints over R |
| C62-C64 | `Shapes.v` | `Props_Shapes.v` | induction over the corner count, edge pairing |
| C65, C70, C78, C79 | `Import.v` | `Props_Import.v` | induction over the scene tree; first-occurrence lemmas (`P_Firsts.v`) |
| C66, C67, C69 | `Ros.v` | `Props_Ros.v` | algebra; float rounding from Flocq (`P_F32.v`) |
| C68 | `Conc.v`: one access per step, any schedule | `Props_Conc.v` | invariant over all interleavings of any number of threads; races by explicit schedules |
| C80-C82 | `Own.v`: nodes as heap blocks | `Props_Own.v` | separation-style representation predicate, forward simulation to the value model |
| C83, C84 | `Tools.v` | `Props_Tools.v` | reduction to the surface theorem of C71 |
| C85, C86 | `MathTypes.v` on doubles | `Props_Round.v` | forward error analysis (`P_Round.v`, `P_Round2.v`, `P_Round3.v`) on Flocq's correctness theorems |
| C87 | `ShapeQuery.v` | `Props_Inside.v` | linking numbers and general-position perturbation (`P_Query5.v`) |
| C88 | `Shapes.v`, `ShapeQuery.v` | `Props_Prism.v` | separating planes between the triangles of a prism (`P_Prism.v`), C87 |
| C89 | `Laser.v`, `Depth.v` | `Props_Sensor.v` | algebra of rigid motions |
| C90 | `Matrix.v` | `Props_Matrix.v` | sign symmetry of rounding (Flocq), computation |
| C91 | `Octree.v` | `Props_OctF.v` | simulation of the double tree by the real tree: exact halving, Sterbenz subtraction, monotone rounding |
| C92 | `Depth.v` | `Props_Stop.v` | induction over the triangles: prefix of the unstopped rendering by whole triangles |
| C93, C94 | `Viewer.v` | `Props_Viewer.v` | loops over frames by induction; orientation test at the camera centre (C93), bounds on the view cone plus C77 (C94) |
| C95 | `Operators.v` | `Props_Operators.v` | induction over the statements of an in-place operation on a memory of cells; spec in `SpecOps.v` |
| C96 | `Laser.v` | `Props_Scan.v` | C53, C55 and C72 for the points; induction over the triangles for the window |
| C97 | `Dispatch.v` | `Props_Dispatch.v` | invariants over programs on a list of shapes; spec in `SpecDispatch.v` |
| C98 | `Box.v` | `P_RayF.v`, `Props_RayF.v` | backward error of each slab, then the argument of C23 on the displaced box |
| C99 | `ShapeQuery.v`, `Mesh.v` | `SpecInsideF.v`, `P_Ap.v`, `P_InsideF.v`, `P_InsideF2.v`, `Props_InsideF.v` | forward error bounds relative to powers of the radius, signs of the test decided with margins, then the argument of C34, C87 |
| C100 | `ShapeQuery.v` | `SpecEdge.v`, `P_Edge.v`–`P_Edge6.v`, `Props_Edge.v` | each triangle as an action on the hit maps, actions per edge cancelled by a perturbation of the segment's end, linking argument of C87 |
| C101 | `Box.v` | `SpecBallF.v`, `P_BallF.v`, `Props_BallF.v` | the clamped point is exact, relative error of the squared distance |
| C102 | `Depth.v`, `Viewer.v` | `SpecPix.v`, `P_PixF.v`, `Props_PixF.v` | chain of rounding errors scaled back to pixels |
| C103 | `Mesh.v`, `Import.v` | `P_KeyF.v`, `Props_KeyF.v` | the product with 1000 never underflows, rounding does not pass an integer |
| C104 | `MathTypes.v`, `Ros.v` | `SpecQuatF.v`, `P_QuatF.v`, `Props_QuatF.v` | the chosen pivot is at least 0.49 in every branch; drift by induction on the number of conversions |
| C105 | `HeightMap.v`, `Box.v` | `P_HeightF.v`, `Props_HeightF.v` | the rounded slab test is monotone in the box; induction over the quad tree; margins through C98 |
| C106 | `Depth.v` | `P_NanF.v`, `P_NanF2.v`, `Props_NanF.v` | float bounds through the edge walk; differences of floats vanish only for equal floats; infinities keep their sign along a row |
| C107 | `IntTypes.v`, `MathTypes.v` | `Props_Int.v` | the polymorphic operators on checked ints, on integers modulo 2^32 and on cells that may be unwritten; the rounded square root stays below the next integer |
| C108 | `MathTypes.v`, `Shapes.v`, `Libm.v` | `Props_Libm.v` | any library meeting the accuracy contract `s_libm`; bounds of pi by the sine series; perturbation of angles by the mean value theorem |
| C109 | `Laser.v`, `Libm.v` | `Props_LaserF.v` | any library meeting `s_libm`; induction over the accumulated angle; truncation of quotients away from the integers; the set of visited beams from the real proof, for any half circle count within two |
| C110 | `Print.v` | `Props_Print.v` | induction over texts; a reader that splits at white space is the specification |
| C111 | `Composite.v`, `Box.v`, `Mesh.v` at `F64` | `Props_CompF.v` | induction over construction histories; Euclidean error grows by one step per frame; hulls of displaced corners |
| C112 | `IntRot.v`, `IntTypes.v`, `MathTypes.v` | `Props_IntRot.v` | truncated quotients and square roots; the entries of an integer rotation are -1, 0, 1, so the round trip is decided by computation over all of them; bounds of cos 1, cos 2, cos 3 |
| C113 | `ShapeQuery.v` | `Props_Coplanar.v` | in the plane the side products are a signed distance times a common factor; sign changes along the edges |
| C114 | `Composite.v`, `Box.v` at `F64` | `Props_CompRayF.v` | induction over construction histories; distances of origin and direction grow by one step per frame; loop invariant on the running limit, which stays a float |
| C115 | `Box.v` at `F64` | `Props_BoxF.v` | invariant over histories (all mesh points finite and in the box, the corners among them); running extremes of close lists are close |
| C116 | `IntRpy.v`, `IntTypes.v`, `Libm.v` | `Props_IntRpy.v` | integers are exact doubles; a pitch that is not a quarter turn is at least 5e-11 away from it; sines and cosines are 1-Lipschitz |
| C117 | `Mesh.v`, `MathTypes.v` at `F64` | `Props_TriF.v` | error of one 2x2 minor of rounded differences; unit vectors of vectors that are close relative to their length; equal products cancel exactly |
| C118 | `Laser.v` at `F64` | `Props_SliceF.v` | weighted means of rounded products; comparison of two runs of the same branches; induction over the triangles; commutativity of double addition |
| C119 | `Laser.v` at `F64` | `Props_RangeF.v` | forward error of the clamped parameter; the parabola is flat at its minimum, so an error in the parameter enters squared; congruence of two runs |
| C120 | `MatrixInit.v` | `Props_MatrixInit.v` | logical relation between a run on cells that may be uninitialised and a run on any storage; induction over programs |
| C121 | `SpecEdgeF.v`, `ShapeQuery.v` | `Props_EdgeF.v` | error analysis of the squared distance to a segment; edges below 1e-18 fall to the corner tests; monotone rounding for the early exit |
| C122 | `SpecNanQ.v`, `ShapeQuery.v` | `Props_NanQ.v` | NaN propagates through sums and products into every side product; induction over the triangles |

Vocabulary that the statements use but the model does not: `Spec.v`, `SpecOctree.v`, `SpecHeight.v`, `SpecOctF.v`,
`SpecComposite.v`, `SpecQuery.v`, `SpecLaser.v`, `SpecDepth.v`, `SpecShapes.v`, `SpecImport.v`,
`SpecTools.v`, `SpecRound.v`.

`seeded/LOG.jsonl` records deliberate bugs put into copies of the model and the theorems that then failed.

## 3. Trusted base

* Coq 8.16.1 kernel, including `vm_compute` (used for closed computations on doubles and for examples).
* The faithfulness of the hand-written Gallina transcription to the C++ text (section 4).
* Axioms: only those of Coq's standard library.  No axioms, parameters, admitted proofs, functors or module types
  are introduced.  Flocq is used for the definition of doubles and for its rounding lemmas; it adds no axioms.
  What `Print Assumptions` reports for each theorem of the manifest (written by `tools/gen_assumptions.py`):

<!-- assumptions -->
* **Closed under the global context** (113 theorems): C11_index_stability, C11_points_only_grow, C11_contents, C11_size, C13_add, C13_valid, C13_wraps, C14_transformed, C15_filter, C15_distinct_keys, C15_idempotent, C18_roundtrip, C18_roundtrip_file, C18_size, C19_overrun_refuted, C19_dispatch_partial, C19_dispatch_refuted, C19_registry, C20_cut_anywhere, C20_stream_state_partial, C20_cut_file_accepted_refuted, C20_missing, C20_missing_refuted, C20_refuted, C21_refuted, C21_written_partial, C31_fresh, C31_current, C32_frozen, C33_returns, C34_returns, C41_appends, C46_mesh_current, C46_setMesh_ignored, C47_malformed, C47_default_never_hits, C47_copy, C57_untouched, C57_rasterize, C58_index, C60_first_pixel_partial, C61_permutes, C62_cylinder, C62_polygon, C64_cylinder, C64_cylinder_zero_refuted, C64_polygon_empty_refuted, C64_polygon_partial, C65_import, C65_valid, C66_lossless, C67_fresh_message_partial, C67_appends, C68_warm_partial, C68_bounding_box_partial, C68_wait_free, C68_race_refuted, C69_reports, C69_round_trip_partial, C69_message, C70_given_format, C70_extension_partial, C70_selected_partial, C70_short_names, C70_refuted, C78_dispatch, C80_refines, C80_safe, C80_isolated, C81_double_free, C81_heightmap, C82_refines, C82_no_leak_iff, C83_errors, C84_last_ignored, C84_origin_ignored, C90_vector, C90_product, C90_rpy, C90_parts, C90_row_range, C95_compound3, C95_compound2, C95_scalar, C95_assign, C95_parts, C95_subscript, C95_element2, C95_element, C95_element_out, C96_window, C97_counts, C97_others, C97_rays, C97_setMesh, C107_int_bound_sharp, C107_unsigned_all, C107_default3, C107_default3_set, C107_fill, C107_array, C110_vectors, C110_matrices, C110_transforms, C110_triangle, C110_matrix_h, C110_injective, C110_indices, C120_independent, C120_rows, C120_setters, C120_origin, C120_spread

* **`ClassicalDedekindReals.sig_forall_dec`** (4 theorems): C22_contains, C30_nan_forgets, C52_untouched, C52_bounds

* **`FunctionalExtensionality.functional_extensionality_dep`** (1 theorems): C46_copy

* **`ClassicalDedekindReals.sig_forall_dec` + `FunctionalExtensionality.functional_extensionality_dep`** (19 theorems): C12_radius_fresh, C12_triangles_fresh, C14_radius, C30_contains, C30_tight, C52_nearest, C52_order, C55_unique, C55_reversed, C57_zbuffer, C57_order, C58_inside, C58_maps_partial, C61_sorts, C61_divisor, C67_refuted, C68_sequential, C68_warm_up, C92_stop

* **`ClassicalDedekindReals.sig_forall_dec` + `ClassicalDedekindReals.sig_not_dec` + `FunctionalExtensionality.functional_extensionality_dep`** (146 theorems): C01_inverse, C01_inverse_apply, C02_compose_apply, C02_monoid, C02_apply_meaning, C02_identity_apply, C02_inverseTimes, C02_rigid_closed, C05_set_is_rotation, C05_scale_invariant, C05_conjugation, C06_matrix_to_quaternion, C06_quaternion_to_matrix, C06_getQuaternion, C07_normalized_columns, C07_normalize_in_place, C07_strip_scale, C08_isometry, C08_dot_preserved, C08_cross_preserved, C08_length_preserved, C09_2d_compose, C09_2d_inverse, C09_2d_inverseTimes, C09_project, C10_cross, C10_lengths, C10_normalized, C10_vector_space, C10_matrix_linear, C10_plane_vectors, C14_compose, C14_rigid_keeps_shape, C14_inverse, C15_key_meaning, C15_displacement, C15_zero_cell_tight, C16_radius, C17_normal, C17_area, C17_area_method, C22_contains_real, C23_ray_box, C24_miss_refuted, C24_false_hit_refuted, C24_forward_partial, C25_partial, C25_actual, C25_miss_refuted, C25_false_hit_refuted, C26_ball, C26_point, C27_enclose, C27_ordered, C28_constructor_partial, C28_enclose_refuted, C28_history_partial, C29_attained, C29_bound_partial, C29_refuted, C30_smallest_real, C32_first_query_partial, C33_sound, C33_complete_partial, C34_general, C34_unique, C34_far, C34_on_triangle, C35_joined_partial, C36_region, C36_union, C37_nearest, C37_first_point, C38_ball, C39_bookkeeping, C40_new, C40_set, C40_any, C40_not_positive, C41_cells, C41_disjoint, C41_radius, C41_returns, C41_fixed, C42_exact, C42_ladder_partial, C42_two_levels_partial, C43_overlap, C44_ray_partial, C44_parallel_never_hits, C45_raytrace, C46_mesh_content, C47_hit, C47_returns, C48_some_column_partial, C48_inside_partial, C49_tops_partial, C55_slice, C55_hits, C56_round_trip_partial, C56_round_trip_iff_partial, C56_refuted, C56_injective, C57_order_real, C59_cover, C59_none, C59_orientation, C59_orientation_weak, C59_behind, C63_polygon, C65_placement, C65_key, C65_merge_error, C66_pose_round_trip, C66_message_meaning, C66_message_round_trip, C69_distortion_refuted, C69_refuted, C69_binning_refuted, C69_window, C71_surface, C74_depth_partial, C75_footprint_partial, C75_refuted, C76_perspective, C76_culling, C77_render, C78_collada, C79_round_trip, C79_exact, C87_path, C89_camera, C94_view, C95_equal_real, C95_matrix, C95_matrix2, C95_normalized, C95_quaternion, C97_bbox, C100_edges, C107_default2, C111_margins, C113_accept, C113_on_triangle, C113_general, C113_outside_accepted

* **`ClassicalDedekindReals.sig_forall_dec` + `ClassicalDedekindReals.sig_not_dec` + `Classical_Prop.classic` + `FunctionalExtensionality.functional_extensionality_dep`** (216 theorems): C03_rpy_is_rotation, C03_rpy_meaning, C03_constructor, C04_angles_recovered, C04_rebuild_partial, C04_singular_minus, C04_rebuild_refuted, C09_2d_yaw, C09_2d_yaw_inverse, C09_2d_constructor, C12_doubles, C22_doubles, C32_stale_refuted, C33_back_refuted, C35_corner_refuted, C35_convex_partial, C35_box_partial, C35_refuted, C42_missed_refuted, C42_phantom_refuted, C44_parallel_refuted, C44_limit_refuted, C44_distance_refuted, C44_returns_refuted, C45_may_not_return, C46_empty_refuted, C48_nearest_refuted, C49_overlap_refuted, C50_parameters, C50_table, C50_returns, C51_partial, C51_point, C51_refuted, C53_partial, C53_beams, C53_null, C53_gap_refuted, C53_cull_refuted, C54_line_far, C54_line_near, C54_mesh, C54_zero_refuted, C55_render, C58_refuted, C58_cast_refuted, C60_refuted, C60_nan_stays, C63_cylinder, C66_point32, C68_radius_refuted, C68_triangles_refuted, C68_contains_refuted, C72_scan_partial, C72_refuted, C73_agree_partial, C73_refuted, C74_refuted, C81_alias_refuted, C81_scope_refuted, C82_leak_refuted, C83_file, C83_pixels, C84_shape_partial, C84_shape_refuted, C84_exit_refuted, C85_apply, C85_compose, C85_inverse, C85_round_trip, C86_matrix, C86_orthonormal, C86_round_trip, C86_length, C86_normalized, C86_quaternion_normalized, C86_tiny_refuted, C87_inside, C87_exact, C88_polygon, C88_cylinder, C89_laser, C89_common_motion, C90_inverse, C90_laws, C91_resolution, C91_follows, C91_exact, C91_points, C91_returns, C91_bound_needed, C93_frames, C93_image, C93_blank, C93_box, C93_refuted, C94_image, C94_frame, C94_small, C94_show, C94_exit, C94_small_refuted, C95_copy_double, C96_points, C96_back, C96_surface, C96_polar, C98_ray, C98_margin, C99_radius, C99_far, C99_general, C99_reals, C99_convex, C100_outside, C100_inside, C100_exact, C101_point, C101_sound, C101_complete_partial, C101_refuted, C102_close, C102_nearest, C102_int_partial, C102_int_iff_partial, C102_refuted, C103_key, C103_defined, C103_displacement, C103_import, C104_quaternion, C104_rotation, C104_matrix, C104_round_trip, C104_drift, C105_nested, C105_hit, C105_margin, C106_row, C106_render, C106_image, C106_top, C107_int_exact, C107_int_compose, C107_int_bound, C107_int_inverse, C107_int_length, C107_int_normalized, C107_unsigned, C107_unsigned_transform, C108_pi, C108_rpy, C108_apply, C108_getRPY, C108_round_trip, C108_planar, C108_cylinder, C109_configured, C109_table, C109_index, C109_index_point, C109_point, C109_line, C111_contains, C111_ball, C111_point, C111_quaternion_pose, C112_get, C112_get_axis, C112_set, C112_round_trip, C112_quarter_turn_lost, C112_get_unsigned, C112_rpy, C112_rpy_double, C112_rpy_not_rotation, C112_get_double, C114_ray, C114_region, C115_enclose, C115_history, C115_chain, C115_size, C115_centre, C115_radius, C116_getRPY, C116_overflow, C116_overflow_singular, C116_rotations, C116_gimbal, C116_planar, C116_quarters, C116_unsigned, C117_normal, C117_area, C117_degenerate, C117_matrix, C117_strip_scale, C117_slivers, C118_slice, C118_exact, C118_rotate, C118_watertight, C118_render, C118_tiny, C119_within, C119_beyond, C119_drawn, C119_margin, C120_garbage, C121_edges, C121_far, C122_contains, C122_triangles, C122_ball, C122_radius

<!-- /assumptions -->

`sig_not_dec`, `sig_forall_dec` and `functional_extensionality_dep` are the axioms under the standard library's real
numbers; `Classical_Prop.classic` comes in with Flocq's and the standard library's lemmas about them.  Theorems on
doubles depend on them because Flocq states the correctness of its operations over R.

### Contracts of external code and of the platform

* Doubles are IEEE-754 binary64, `float` is binary32, round to nearest even, no fused multiply-add, no excess
  precision.  `sqrt` is correctly rounded.  `sin`, `cos` and `atan2` are the exact functions in the real-number
  instance; on doubles they are an argument of the theorems, assumed to meet the accuracy contract `s_libm` (C108).
* A conversion of a double to an integer type that cannot hold it is undefined behaviour; unsigned arithmetic wraps
  at 2^32; `int` is 32 bits, little endian, in serialised data.
* assimp: the scene it hands over is an input; what it writes and reads back is assumed to be lossless (C79).
* image_geometry: `PinholeCameraModel` is modelled by its documented formulas (C56, C69).
* tf2: constructors and accessors keep the numbers they are given (C66).
* Threads: sequential consistency, plus the definition of a data race (C68).
* Allocation succeeds and never returns an address that was used before (C80-C82).

## 4. Modelled / not modelled

| file | modelled | not modelled |
|------|----------|--------------|
| `include/geolib/math_types.h` | every function of Vec2T, Vec3T, Mat2T, Mat3T, QuaternionT, Transform2T, Transform3T that computes a value (`MathTypes.v`), and assignments, in-place operators, comparisons and element access on a memory of cells (`Operators.v`); int and unsigned int components, default constructors and constructors from one value or an array (`IntTypes.v`); rotations of integer matrices (`IntRot.v`) and their angles (`IntRpy.v`); stream printers (`Print.v`) | — |
| `include/geolib/matrix.h` | all (`Matrix.v`), uninitialised storage included (`MatrixInit.v`) | — |
| `src/Triangle.cpp`, `src/Mesh.cpp`, `Mesh.h` | all | 2^32 or more points: loop counters are not wrapped |
| `src/Ray.cpp`, `src/Box.cpp` | all | `length_` (never read) |
| `src/Shape.cpp` | all | printing |
| `src/CompositeShape.cpp` | all | logging |
| `src/Octree.cpp`, `src/OctreeNode.cpp` | all, twice: as values (`Octree.v`) and with pointers (`Own.v`) | reuse of freed addresses |
| `src/HeightMap.cpp`, `src/HeightMapNode.cpp` | all, as values and with pointers | as above |
| `src/shapes.cpp` | all | - |
| `src/serialization.cpp` | all | big-endian hosts |
| `src/sensors/LaserRangeFinder.cpp` | all, in real arithmetic; beams, indices, points, lines (C109), their maximum range (C119) and meshes (C118) also on doubles | — |
| `src/sensors/DepthCamera.cpp` | all | the OpenCV container itself (an image is a function of row and column with a size) |
| `src/io/import.cpp`, `src/io/export.cpp` | all | assimp |
| `src/ros/msg_conversions.cpp`, `ros/*.h` | all | message fields the code does not touch |
| `tools/height_image_to_*.cpp` | `main`: arguments, grid, shift, writing, exit codes | OpenCV's image reader and `atof` (inputs) |
| `src/visualization.cpp`, `tools/show.cpp` | all: arguments, loading order, camera, poses, frames handed to the window, keys | the window itself; OpenCV's own argument checks |

Every definition in a model file cites the lines it transcribes and says where it simplifies.
Loops whose number of iterations depends on data take a fuel argument; theorems quantify over it or show that enough fuel exists.
