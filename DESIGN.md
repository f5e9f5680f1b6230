# Formal model of RGB-D-SLAM in Rocq (Coq 8.16.1)

The source under study is `/repo` (read as text, never built). Everything under
`rocq/theories` is a hand-written model of that source plus machine-checked
theorems about it. Each subsystem has

* `XModel.v`  – executable definitions, each citing the file and lines modelled,
* `XSpec.v`   – (where useful) a small specification independent of the model,
* `XProofs.v` – lemmas and proofs,
* `XProps.v`  – the property theorems, `Print Assumptions`, and examples showing
  that the hypotheses are met by a concrete case.

Theorem name suffixes: `_refuted` means that the naive English property is false
of the code and the theorem exhibits where (the property statement in
`properties.jsonl` names the exception in parentheses, so the positive theorems and
the refutations together are the property); `_partial` means that only part of the
property is proved (the comment says what is missing).

## Plan per property

| Property | What is modelled | How it is proved |
|---|---|---|
| C01–C09 | the id allocator, `IMapFeature` counters, `Feature_Map` (local and staged maps as id-keyed association lists), per-kind policies (points, 2D points, planes), `Local_Map::update` order of calls; feature matching, Kalman update success, visibility and constructors are oracles (universally quantified functions) | invariants lifted over lists of operations; history lemmas on counters; output trace as a list |
| C10–C12, C52, C53 | `RGBD_SLAM` tracking state machine and its construction; optimiser, map update and covariance validity are oracle outcomes per frame | induction over frame lists, characterisation of counters; the map invariants of C01–C09 lifted to the loop |
| C13 | `Parameters` static state, parse outcomes, function-static caches | state machine, witness for the stale cache |
| C14–C16, C54 | keypoint search grid, mask computation with `uint` wrap, tracking-id map, depth lookup | arithmetic over `Z` with explicit `mod 2^32`, list induction |
| C17, C18, C55, C56 | optical-flow filtering, detection windows with arbitrary completion order, refresh decision | sub-list induction, permutation |
| C19–C24, C57 | feature sets, scores, RANSAC loop both sequential and as an interleaving small-step system with a lock, subset drawing, residual vector, pose variance | invariants over all schedules, `Permutation`, real linear algebra for the variance, IEEE doubles (Flocq) for the rounding claim |
| C25, C26 | quaternion stereographic parametrisation over `R` | field arithmetic, derivatives (Coquelicot) |
| C27–C33, C58–C60 | histogram, seed-and-grow loop, region growing, label grids, merge labels, adjacency, erosion masks | measures, reachability by induction, invariants |
| C34, C35, C61 | plane segment running sums, continuity scan, fit over `R` with the eigen decomposition as a lawful oracle | list induction, sums of squares |
| C36, C37, C62, C63 | cylinder fitting loop, RANSAC of one sub-segment, copy constructor | measure, explicit NaN outcome, exact recovery |
| C38, C39 | cell index arithmetic, parallel fill and rectification as arbitrary permutations of writes | arithmetic, permutation invariance of disjoint writes |
| C40, C41 | map writers as line emitters | induction over call lists |
| C42–C44, C64 | TUM association on integer time stamps | greedy matching invariants |
| C45–C49, C65–C68, C71, C72 | coordinates, transformations, polygons, lines, inverse depth points over `R` (exact arithmetic) | field and nra reasoning, derivatives, explicit witnesses for refutations |
| C50, C74–C77 | Kalman filter and the tracked features over any ordered field (mathcomp matrices) | matrix algebra, invariants over histories |
| C51 | neighbour count schedule, hull loop, comparisons with tolerance, crossing and enclosing tests | measure on the schedule, invariants of the hull loop, witnesses |
| C69, C70 | covariances of pixels and planes | positive semi-definiteness of congruences |
| C73 | motion model on quaternions | induction over histories |
| C78 | matching of planes, points and 2D points with the detections | characterisation of the scans for the best candidate |
| C79 | merge test of plane segments | real inequalities |
| C80, C81 | erosion and dilation on the grid, boundary points under any scheduling, selection of cylinders | set characterisations, permutations |
| C82 | inlier tests and random variations of the optimisation features | real inequalities, reuse of the projection and line theorems |
| C83 | random integers and drop chance, with binary64 rounding | Flocq rounding lemmas |
| C84 | linearity score and promotion of 2D points to 3D points | real inequalities, law of cosines, explicit witnesses |
| C85 | creation, updates and promotion of points, 2D points and planes over any ordered field | induction over histories of updates, invariants of the tracked features (C74–C77) |
| C86 | clamping of segments to the screen, visibility of points, 2D points and planes | convexity of the frame, exit points of segments, projective parameters |
| C88–C90 | polygons with holes: fit, common areas, merges and moves | case analysis on the oracles, reduction to the polygons without holes, witnesses for the refutations |
| C91–C94 | poses under any sequence of calls, their errors, the angles and the vector of a pose | induction over the calls, quaternions as matrices, the trace gives the angle, Cauchy–Schwarz in dimension 4 for the triangle inequality; an extraction of angles is built to show the hypotheses hold |
| C95–C99 | the line segment detector (growth, rectangles, detection, refinement) and the display of lines | invariant of the growth loop, variational form of the axis of least inertia, invariant over the seeds for the partition, decreasing radius for the refinement; the refutations evaluate the whole detector on an image by symmetry and permutation arguments |
| C100 | the readers of the text files of a dataset, from characters to frames | relational grammar of lines; induction on the lines for the maps, composition with C42 and C64 |
| C101 | the loops of the two example programs | induction on the frames; reached indices and a decreasing distance modulo 2^32 for the end |
| C102 | the geodesic morphological operations | level sets as paths by induction on the steps, increasing sum for the end, duality for the erosion |
| C103 | the debug image: drawing of the maps, counts, frame rate, overlay | the image as a list of strokes; the drawing of each feature from the visibility theorems of C86, induction on the maps, inverse of the decimal printing |
| C104 | the duration statistics of all the objects | totals as a fold over the history, one store of static totals; sums by induction |
| C105 | lines and segments: closest point, crossings | orthogonal decomposition; invariant of the changes; law of the intersection oracle |
| C106 | the random subsets with repetitions | loops over the rounded draws; the possible results are characterised in both directions |
| C107 | the logger with any number of threads | interleaving machine with one lock per function; invariant: shuffle of whole messages; decreasing measure for progress |
| C108 | the cutting of an outline at its crossings, as maps and sets of keys | the walk is a permutation of the keys, so each trace is one of its orbits; the sorted keys of an edge cut it, additive quantities are kept |
| C109 | the filling of the rings and the choice of the polygon | points off the outlines; only the rings around a point matter for it, they form a chain, induction on the scores |
| C110 | the mask of the tracked points kept in a static variable, the detectors as corners filtered by the mask, the refinement | the mask of a call is exactly the complement of the discs, by induction on the points and on the frames; the results of C18 with the filtered corners |
| C111 | the function local static variables that keep the parameters of the camera | invariant on the history: a kept value is the one of the camera loaded at the first call that needed it |
| C112 | the loops of the family of maps and the features that change kind | induction on the family, then on the maps that remain to be asked; the identifiers are fresh by the invariant of C01 |
| C113 | the detection at several scales, its pyramid and its mask | induction on the octaves; the erasing loop is a filter, by induction on what remains to be visited |
| C114 | the improvement of rectangles, the pixels and the score of a rectangle | each loop computes the first best element of a list in closed form; induction on the rows; the loop of the tail sums binomial probabilities |
| C115 | the engines of the threads, the tasks of a frame and the points to follow | induction on the history of starts and works, then on the map |
| C116 | the parts of a detected cylinder, its copies, the distance and the similarity | the identity of Lagrange, induction on the parts |
| C117 | the odd-even filling of rings, the correction of polygons with holes | each round is a zip of the two halves of the list; parity of the cover is an invariant |
| C118 | the masks of two lists of segments, their comparison, the colours of the image | closed form of each mask and of each byte of the image; counting |
| C119 | the tasks of detect_features as programs that read and write shared places, taking turns in any order | an invariant relates every interleaving to the run of each task alone |
| C120 | the readers of a depth image over numbers with NaN and infinities, the rounding being an arbitrary function | every reader tests the depth before using it; a non finite depth is absorbed by sums and products until the test that exits |
| C121 | the grid of keypoints and the test of distance over the reals of the double precision format, each operation rounded to nearest even | the gap under 31 m is more than 31 times half of the gap under m, so a quotient never rounds up to an integer; relative error bounds for the distance |
| C122 | matrices as headers on shared buffers, the detection of descriptors, the container of keypoints and the descriptors of the map features | refinement to values without sharing: buffers are only appended, so what a header shows never changes |
| C123 | the decisions on counts, each constant and product rounded | bounds of the rounding error; at exact fractions monotonicity of the rounding towards the side of the constant |
| C124 | the number of iterations, the draw from an order of the matches | enumeration of the orders by choice of the first element, counts by induction; sequences of draws as powers; logarithms by exact powers |
| C125 | the merge of the lists of matches of the maps, with the addresses of the matches | induction on both lists; refinement to the concatenation of the matches of the maps up to a permutation; concrete maps for what is refuted |
| C126 | the conversions between screen, camera and world with every operation rounded, the inverse of the intrinsics by cofactors | a calculus of numbers known up to k roundings of a given size (sum, product, inverse, rounding), applied along the computations |
| C127 | the sums, expansions and scatter matrix of plane segments with products rounded to floats and sums rounded to doubles | an invariant on computed and exact sums (errors grow as the square of the number of points), kept by points and expansions, then the calculus of C126; the refutation computes the roundings of two points |
| C128 | the projection of the pixels of the depth image by aligned cameras, with directions and products rounded to floats and the screen coordinates to doubles then to the pixel below | the calculus of C126 bounds the computed coordinate within 1/200 of the pixel, then C39 for every schedule; for two cameras the errors of the point, of the transformation and of the quotient are composed; the refutations compute the roundings of one depth |
| C129 | the points of the organised cloud, computed in doubles and stored as floats | C38 for every schedule, C126 for the computed point, then the rounding to floats |
| C130 | the sums, means and products of the pose variance, each rounded to a double, in any order of the iterations | an invariant on computed and exact sums (errors grow as the square of the number of poses), composed through the mean, the products and the quotient; the diagonal dominates the error of the quadratic form |
| C131 | the variation of a set of matches of the three kinds, the optimisation of each and their variance | induction over the matches with an index; the gates of the optimisation are folds over the kinds, which do not change; copies of one pose have no covariance |
| C87 | the three point pose solver | root of the cubic, spectral decomposition of the singular form, factorisation in two planes, roots of the second degree equation |

## Trusted base

* Coq 8.16.1 kernel (`coqc`, re-checked by `coqchk`), with no kernel check switched off.
* The libraries Coq.Reals, Flocq (IEEE doubles), Coquelicot (derivatives) and mathcomp
  (matrices); none of them adds an axiom to the ones below.
* Axioms: only those of the Coq standard library, as printed by `Print Assumptions` under
  each theorem. In the table of the last section they are abbreviated
  * `D`: `ClassicalDedekindReals.sig_forall_dec`,
  * `N`: `ClassicalDedekindReals.sig_not_dec`,
  * `C`: `Classical_Prop.classic`,
  * `F`: `FunctionalExtensionality.functional_extensionality_dep`,
  * `none`: closed under the global context.
* The reading of the C++ source by a human; simplifications are stated in the
  comment of each definition.

### Common simplifications

* Floating point numbers are exact (`R`, `Q` or an ordered field), except where a property
  is about rounding (`DoubleModel.v`, C24). NaN and infinities are only modelled where an
  explicit outcome of the code depends on them (C37, C24, inverse depth of 0).
* Signed integers do not overflow; unsigned wrap is modelled where the code can reach it
  (cell indices, identifiers, counters).
* `assert`s are compiled out unless the comment of the definition says otherwise; an
  undefined behaviour of the code (access out of range, null) is the outcome `UB`, `exit`
  and an exception are outcomes of their own.
* Containers are lists; `std::map`/`unordered_map` iterations are lists of unspecified order
  (theorems hold for every order) or sorted lists where the order is that of the keys.
* Threads are interleavings of atomic steps under the lock (RANSAC) or arbitrary
  permutations of independent writes (depth map, detection windows).

### What is modelled

| Source | Model |
|---|---|
| `src/map_management/feature_map.hpp`, `local_map.hpp` | `FeatureMapModel`, `LocalMapModel`, the list of matches in `GatherModel` |
| `src/map_management/map_features/*` | policies in `FeatureMapModel`/`LocalMapModel`, matching in `KeypointModel`/`MatchingModel`, optimisation features in `PoseOptModel` and `OptFeatureModel`, life of the features in `MapUpdateModel` and `UpgradeModel` |
| `src/rgbd_slam.cpp` | `SlamModel`, the tasks of a frame in `FrameTaskModel` |
| the readers of the depth image | `MissingDepthModel` |
| `src/parameters.*` | `ParametersModel`, `CameraUseModel` |
| `src/features/keypoints/*` | `KeypointModel`, `DetectionModel`, `MaskModel`, with rounding in `RoundedGridModel`, descriptors in `DescriptorModel`; decisions on counts with rounding in `ProportionModel` |
| `src/matches_containers.hpp`, `src/pose_optimization/*` | `PoseOptModel`, `DrawModel`, `RansacDrawModel`, `PoseVarianceModel`, `VariationModel`, with rounding in `RoundedVarianceModel`, `RotationModel`, `DoubleModel` |
| `src/features/primitives/*` | `PrimitiveModel`, `PlaneSegmentModel`, with rounding in `RoundedSegmentModel`, `CylinderModel`, `CylinderGeometryModel`, `DepthMapModel`, with rounding in `RoundedDepthMapModel` and `RoundedCloudModel`, `BoundaryModel`, similarity in `MatchingModel` |
| `src/coordinates/*`, `src/utils/camera_transformation.*`, `distance_utils.*`, `line.*`, `angle_utils.*` | `GeometryModel`, with rounding in `RoundedCameraModel`, `InverseDepthModel`, `PolygonModel`, `VisibilityModel` |
| `draw` of the features, `get_debug_image` | `DisplayModel` |
| `src/utils/polygon.*` | `PolygonModel`, `ShapeModel` |
| `src/utils/pose.*`, `angle_utils.*`, `src/parameters.cpp:37-49` | `PoseModel` (the text written by `Pose::display` is not modelled beyond the three angles) |
| `src/utils/covariances.*` | `GeometryModel`, `InverseDepthModel`, `KalmanModel` |
| `src/tracking/*` | `KalmanModel`, `TrackingModel`, `MotionModel` |
| `src/outputs/map_writer.*`, `logger.*` | `MapWriterModel`, `LoggerModel` |
| `third_party/correct_boost_polygon.hpp`, its use in `src/utils/polygon.cpp` | `DissolveModel`, `FillModel`, `OddEvenModel` |
| `src/utils/line.*` | `LineModel` |
| the `show_statistics` functions | `StatsModel` |
| `examples/TUM_parser.hpp`, `examples/main_TUM.cpp`, `examples/main_CAPE.cpp` (without their command lines) | `AssociationModel`, `TumModel`, `DemoModel` |
| `third_party/geodesic_operations.*` | `GeodesicModel` |
| `third_party/concave_fitting.*` | `ConcaveHullModel` |
| `third_party/p3p.*` | `P3pModel` |
| `third_party/line_segment_detector.cpp`: detection with octaves, pyramid, mask | `OctaveModel` |
| `utils/random.hpp` engines of the threads, `feature_map.hpp` get_tracked_features, the keypoint task of `rgbd_slam.cpp` | `RandomThreadModel` |
| `features/primitives/cylinder_segment.cpp` distance, similarity, copy constructors | `CylinderDistanceModel` |
| `third_party/line_segment_detector.cpp`: advanced validation (`rect_improve`, `rect_nfa`, `nfa`) | `ImproveModel` |
| `third_party/line_segment_detector.*`, `src/features/lines/*` | `LsdModel`, `CompareModel` |

### What is not modelled

* OpenCV: FAST/ORB detection and descriptors, optical flow, drawing, image input and output;
  their results are oracles.
* Eigen's numerical decompositions (eigen solver, LDLT pivoting, Levenberg-Marquardt
  iterations): oracles, lawful (exact decomposition) where a theorem says so.
* Boost geometry (union, intersection, simplification, validity, self turns): oracles, lawful
  where a theorem says so.
* flann neighbour search: oracle. YAML parsing: outcomes per field.
* The formula of `log_gamma` of `third_party/line_segment_detector.cpp`,
  the pixels written by the drawing functions of OpenCV.
* The command lines of the examples.

## Theorems, files and axioms

| Property | Status | Files | Theorems by axioms used |
|---|---|---|---|
| C01 | proved | `FeatureMapProps.v` | none: `C01_ids_unique_nonzero`, `C01_ids_never_reused`, `C01_local_map_runs_are_covered`, `C01_promotion_keeps_id` |
| C02 | proved | `FeatureMapProps.v` | none: `C02_point_survival`, `C02_plane_survival` |
| C03 | proved | `FeatureMapProps.v` | none: `C03_point_update`, `C03_plane_update`, `C03_point_entry`, `C03_plane_entry`, `C03_no_pose`, `C03_staged_kept_otherwise` |
| C04 | proved | `FeatureMapProps.v` | none: `C04_written_once_and_complete`, `C04_written_when_lost` |
| C05 | proved | `FeatureMapProps.v` | none: `C05_detections_accounted` |
| C07 | proved | `FeatureMapProps.v` | none: `C07_update_returns`, `C07_update_returns_refuted` |
| C08 | proved | `FeatureMapProps.v` | none: `C08_invalid_covariance_rejected`, `C08_deactivated_unchanged`, `C08_deactivated_refuted` |
| C09 | proved | `FeatureMapProps.v` | none: `C09_mark_outlier_frame`, `C09_claim_removed` |
| C06 | proved | `KeypointProps.v` | none: `C06_points_exclusive`, `C06_points2d_exclusive`, `C06_planes_exclusive`, `C06_point_find_returns`, `C06_cross_kind_refuted` |
| C14 | proved | `KeypointProps.v` | none: `C14_cell_index_in_range`, `C14_landscape_images`, `C14_cells_cover`, `C14_set_never_out_of_range`, `C14_portrait_refuted` |
| C15 | proved | `KeypointProps.v` | none: `C15_candidates_exact`, `C15_complete_away_from_borders`, `C15_completeness_refuted`, `C15_advanced_search_not_wider` |
| C16 | proved | `KeypointProps.v` | none: `C16_found_carries_identifier`, `C16_always_found`, `C16_found_unmatched` |
| C10 | proved | `SlamProps.v` | none: `C10_pose_is_last_optimised`, `C10_one_frame`, `C10_never_exits` |
| C11 | proved | `SlamProps.v` | none: `C11_lost_exactly`, `C11_success_clears`, `C11_second_frame_never_lost` |
| C12 | proved | `SlamProps.v` | none: `C12_redetection_schedule`, `C12_every_five_frames` |
| C52 | proved | `SlamProps.v` | none: `C52_tracking_maps_reachable`, `C52_failed_frame_counts_a_miss` |
| C13 | proved | `ParametersProps.v` | none: `C13_getters_report_last_load`, `C13_sane_file_accepted`, `C13_bad_file_rejected`, `C13_intrinsics_fresh`, `C13_intrinsics_are_those_of_the_first_call`, `C13_intrinsics_fresh_2`, `C13_intrinsics_are_those_of_the_first_call_2`, `C13_negative_size_rejected_refuted`, `C13_intrinsics_follow_parse_refuted` |
| C53 | proved | `ParametersProps.v` | none: `C53_construct_iff_valid`, `C53_after_unreadable_file`, `C53_default_fallback_refuted` |
| C17 | proved | `DetectionProps.v` | none: `C17_flow_sound`, `C17_flow_complete`, `C17_identifiers_stay_distinct` |
| C18 | proved | `DetectionProps.v` | none: `C18_schedule_independent`, `C18_every_complete_schedule_ends`, `C18_inside_windows`, `C18_window_quota`, `C18_window_quota_refuted`, `C18_best_points_kept`, `C18_best_points_reported` |
| C54 | proved | `DetectionProps.v` | none: `C54_depth_read_in_bounds` |
| C55 | proved | `DetectionProps.v` | none: `C55_every_frame_served`, `C55_container_follows_image_refuted` |
| C56 | proved | `DetectionProps.v` | none: `C56_windows_cover`, `C56_windows_disjoint` |
| C19 | proved | `PoseOptProps.v` | CDFN: `C19_classification`, `C19_throwing_test_ends_the_program` |
| C20 | proved | `PoseOptProps.v` | CDFN: `C20_self_consistent`, `C20_ends`, `C20_optimized_pose`, `C20_inliers_of_the_final_pose_refuted`, `C20_failure_leaves_sets_empty_refuted` |
| C21 | proved | `PoseOptProps.v` | CDFN: `C21_sequential_one_kind`, `C21_keeps_the_best_refuted`, `C21_sequential_mixed_refuted` |
| C22 | proved | `PoseOptProps.v` | CDFN: `C22_random_subset`, `C22_throws_iff_not_enough`, `C22_score_exact`; none: `C22_fixed_size`, `C22_fixed_size_reached` |
| C23 | proved | `PoseOptProps.v` | CDFN: `C23_never_under_determined`, `C23_enough_is_optimised`; none: `C23_residuals` |
| C24 | proved | `PoseVarianceProps.v` | DF: `C24_variance`, `C24_enough_samples`, `C24_order_independent`, `C24_succeeds`, `C24_from_samples_refuted` |
| C25 | proved | `RotationProps.v` | DF: `C25_always_unit`, `C25_round_trip`, `C25_round_trip_coefficients`, `C25_round_trip_everywhere_refuted`, `C25_pole`; DFN: `C25_pose_round_trip` |
| C26 | proved | `RotationProps.v` | CDFN: `C26_other_entries`, `C26_diagonal_entries`, `C26_jacobian_refuted` |
| C57 | proved | `RotationProps.v` | none: `C57_estimator_accepts`; DF: `C57_residuals`, `C57_no_stale_residual`, `C57_no_stale_residual_refuted` |
| C27 | proved | `PrimitiveProps.v` | none: `C27_removed_cell_proposed_only_from_bin_one`, `C27_removed_cell_not_proposed_refuted` |
| C28 | proved | `PrimitiveProps.v` | none: `C28_counters_after_init`, `C28_needs_valid_bins`, `C28_most_frequent`, `C28_counters_after_removals`, `C28_bin_one_counter_refuted`; CDFN: `C28_bin_in_range` |
| C29 | proved | `PrimitiveProps.v` | CDFN: `C29_terminates`, `C29_result_unique` |
| C30 | proved | `PrimitiveProps.v` | none: `C30_exactly_reachable`, `C30_inside_and_free`, `C30_from_any_state` |
| C31 | proved | `PrimitiveProps.v` | CDFN: `C31_one_plane_by_cell`, `C31_labels_kept`; none: `C31_start`, `C31_parts` |
| C32 | proved | `PrimitiveProps.v` | none: `C32_labels`, `C32_not_merged_was_refused` |
| C33 | proved | `PrimitiveProps.v` | none: `C33_sound`, `C33_symmetric`, `C33_complete`, `C33_complete_refuted`, `C33_inside_matrix` |
| C58 | proved | `PrimitiveProps.v` | CDFN: `C58_only_seed_twice`, `C58_every_cell_once_refuted`; none: `C58_merged_points`, `C58_planes_fitted_on_their_cells`, `C58_merged_in_one_plane_refuted` |
| C59 | proved | `PrimitiveProps.v` | CDFN: `C59_masks` |
| C60 | proved | `PrimitiveProps.v` | CDFN: `C60_seed_is_minimal` |
| C34 | proved | `PlaneSegmentProps.v` | DF: `C34_expansion`, `C34_order_and_grouping_free`, `C34_statistics` |
| C35 | proved | `PlaneSegmentProps.v`, `RoundedSegmentProps.v` | DF: `C35_scatter`; DFN: `C35_plane`, `C35_least_squares`, `C35_refused`, `C35_perfect_planes_refused` |
| C36 | proved | `CylinderProps.v` | CDFN: `C36_parts`, `C36_extraction_with_cylinders`; none: `C36_cells_of_parts` |
| C37 | proved | `CylinderProps.v` | CDFN: `C37_reported_radius`, `C37_radius_of_the_original`, `C37_mean_radius_refuted` |
| C61 | proved | `PlaneSegmentProps.v` | DFN: `C61_planar_cell`, `C61_whole_row_refuted`, `C61_whole_column_refuted` |
| C62 | proved | `CylinderProps.v` | CDFN: `C62_best_cylinder`, `C62_stops_when_enough_refuted` |
| C63 | proved | `CylinderGeometryProps.v` | DF: `C63_least_squares`; DFN: `C63_exact`, `C63_exact_hypothesis` |
| C38 | proved | `DepthMapProps.v` | none: `C38_one_slot_by_pixel`, `C38_cells_are_contiguous`, `C38_same_cloud_for_every_schedule`, `C38_stores_in_range`, `C38_any_size_refuted` |
| C39 | proved | `DepthMapProps.v` | none: `C39_value_of_one_source`, `C39_same_image_for_every_schedule`, `C39_first_row_and_column_null`, `C39_defined_iff_projections_not_negative`, `C39_one_result_refuted`, `C39_always_defined_refuted` |
| C40 | proved | `MapWriterProps.v` | none: `C40_lines_and_faces`, `C40_closed_boundary`, `C40_vertices`, `C40_points_never_resolved`, `C40_point_references_the_next_vertex`, `C40_points_refuted` |
| C41 | proved | `MapWriterProps.v` | none: `C41_xyz`, `C41_pcd`, `C41_announced_number_refuted` |
| C42 | proved | `AssociationProps.v` | CDFN: `C42_every_rgb_once`, `C42_depth_at_most_once`, `C42_paired_images_are_close` |
| C43 | proved | `AssociationProps.v` | CDFN: `C43_stable`, `C43_images_without_depth` |
| C44 | proved | `AssociationProps.v` | CDFN: `C44_strict_order_iff_no_crossing`, `C44_strict_order_refuted` |
| C64 | proved | `AssociationProps.v` | CDFN: `C64_closest_ground_truth`, `C64_attached_is_close` |
| C45 | proved | `GeometryProps.v` | DF: `C45_screen_camera_screen`, `C45_camera_screen_camera`, `C45_intrinsics_invertible`, `C45_screen_points_accepted`, `C45_only_in_front_refuted`, `C45_same_pixel_same_ray` |
| C46 | proved | `GeometryProps.v` | DFN: `C46_inverse`, `C46_inverse_exists`, `C46_distances`, `C46_camera_center`, `C46_translation` |
| C47 | proved | `GeometryProps.v` | DFN: `C47_distances`, `C47_round_trip`, `C47_inverse_exists`, `C47_angles` |
| C48 | proved | `PolygonProps.v` | DFN: `C48_axes`, `C48_plane_space_plane`, `C48_space_plane_space`, `C48_construct`, `C48_moves`, `C48_project`, `C48_project_same_plane`, `C48_transform`, `C48_transform_refuted` |
| C65 | proved | `GeometryProps.v` | DFN: `C65_pixel`, `C65_metric`, `C65_plane`, `C65_plane_refuted` |
| C66 | proved | `GeometryProps.v` | DFN: `C66_closest_points`, `C66_line_distance`, `C66_parallel_direction` |
| C67 | proved | `PolygonProps.v` | DFN: `C67_area_is_current`, `C67_merge`, `C67_merge_keeps_plane`, `C67_merge_keeps_polygon_refuted`; DF: `C67_simplify`, `C67_biggest` |
| C49 | proved | `InverseDepthProps.v` | DFN: `C49_constructor`, `C49_closest_is_far`, `C49_furthest_is_far_or_behind`, `C49_bracket_refuted`; CDFN: `C49_recovers_the_point`, `C49_recovers_the_parameters`, `C49_recovers_the_parameters_at_the_poles_refuted`, `C49_seen_at_its_pixel` |
| C68 | proved | `InverseDepthProps.v` | CDFN: `C68_jacobians_are_inverse`, `C68_cartesian`, `C68_spherical`, `C68_from_cartesian`, `C68_to_world`, `C68_screen` |
| C69 | proved | `CovarianceProps.v` | DF: `C69_screen_covariance_valid`; CDFN: `C69_exact_after_center`, `C69_variances`, `C69_covariance_refuted`, `C69_moves` |
| C70 | proved | `CovarianceProps.v` | CDFN: `C70_reduced_jacobian`, `C70_normal_rows`, `C70_distance_row`; DFN: `C70_distance_variance`, `C70_distance_variance_refuted`, `C70_round_trip`, `C70_round_trip_refuted`, `C70_valid`; DF: `C70_reduced_valid` |
| C71 | proved | `InverseDepthProps.v` | CDFN: `C71_smallest_difference`, `C71_null_iff_same`, `C71_small_difference` |
| C72 | proved | `InverseDepthProps.v` | DFN: `C72_distance_to_the_line`, `C72_distance_to_the_segment_refuted` |
| C73 | proved | `MotionProps.v` | CDFN: `C73_predictions_are_unit`, `C73_constant_velocity`, `C73_at_rest`, `C73_reset`, `C73_constant_rotation`, `C73_rotation_refuted`, `C73_variance` |
| C50 | proved | `KalmanProps.v` | none: `C50_validity_test`, `C50_pseudo_inverse`, `C50_update`, `C50_refuses`, `C50_measured`, `C50_exact_measurement`, `C50_certain_state`, `C50_one_dimension`, `C50_scalar` |
| C74 | proved | `KalmanProps.v` | none: `C74_covariance_valid`, `C74_refusals`, `C74_never_less_certain`, `C74_invalid_init`, `C74_refused_dynamics_refuted` |
| C75 | proved | `TrackingProps.v` | none: `C75_history`, `C75_track`, `C75_moving`, `C75_moving_refuted` |
| C76 | proved | `TrackingProps.v` | none: `C76_history`, `C76_track`, `C76_refused`, `C76_throw_changes_refuted` |
| C77 | proved | `TrackingProps.v` | none: `C77_created`, `C77_history`, `C77_failed_update`, `C77_read_back`, `C77_never_more_certain_than_first_pose`, `C77_measured_refuted`, `C77_failed_update_moves_refuted` |
| C51 | proved | `ConcaveHullCases.v`, `ConcaveHullProps.v` | CDFN: `C51_ends`, `C51_numbers_tried`, `C51_numbers_grow_refuted`, `C51_vertices`, `C51_no_crossing`, `C51_next_vertex`, `C51_points_left_out`, `C51_encloses_refuted`, `C51_few_points` |
| C78 | proved | `MatchingProps.v` | none: `C78_plane_match`, `C78_first_plane_refuted`, `C78_reversed_plane_refuted`, `C78_keypoint_match`, `C78_tracked_point`, `C78_untracked_point`, `C78_point2d_refuted` |
| C79 | proved | `PlaneSegmentMerge.v` | CDFN: `C79_merge_test`; DFN: `C79_growth`, `C79_symmetry_refuted` |
| C80 | proved | `BoundaryProps.v` | none: `C80_boundary_cells`, `C80_reads_in_image`, `C80_border_exists`, `C80_enough_points`; DFN: `C80_boundary_points`, `C80_never_terminates` |
| C81 | proved | `BoundaryProps.v` | none: `C81_kept`, `C81_thick_region`, `C81_whole_grid_refuted`, `C81_reported` |
| C82 | proved | `OptFeatureProps.v` | DF: `C82_point_inlier`, `C82_plane_inlier_angle`, `C82_point_variation`; CDFN: `C82_plane_inlier`; DFN: `C82_point2d_close`, `C82_point2d_inlier_refuted`, `C82_plane_variation`, `C82_plane_variation_refuted`, `C82_point2d_variation` |
| C83 | proved | `OptFeatureProps.v` | CDFN: `C83_in_range`, `C83_all_reached`, `C83_dropped` |
| C84 | proved | `UpgradeProps.v` | CDFN: `C84_upgraded_iff`, `C84_covariance`, `C84_first_place`, `C84_new_point`, `C84_new_interval`, `C84_monotone`, `C84_uncertain_upgraded_refuted`; DFN: `C84_not_upgraded` |
| C85 | proved | `MapUpdateProps.v` | none: `C85_point_created`, `C85_point_update`, `C85_point_history`, `C85_point_invalid_pose_refuted`, `C85_point2d_created`, `C85_point2d_update`, `C85_point2d_history`, `C85_plane_created`, `C85_plane_update`, `C85_plane_history`, `C85_plane_by_the_origin_refuted` |
| C86 | proved | `VisibilityProps.v` | DF: `C86_point_visible`, `C86_clamped_in_image`, `C86_half_visible`; CDF: `C86_accepted`, `C86_visible_part`; CDFN: `C86_point2d_visible`; DFN: `C86_point2d_behind_refuted`, `C86_plane_visible`, `C86_plane_behind_refuted` |
| C87 | proved | `P3pProps.v` | CDFN: `C87_count`, `C87_rays`, `C87_sound`, `C87_complete`, `C87_orthogonal_rays_refuted`, `C87_symmetric_refuted`; DF: `C87_refine` |
| C88 | proved | `ShapeProps.v` | DFN: `C88_fit`, `C88_refused`, `C88_vertices`, `C88_biggest_part_refuted`; CDFN: `C88_concave_hull` |
| C89 | proved | `ShapeProps.v` | DFN: `C89_areas`, `C89_parts`, `C89_failure`, `C89_ratio`, `C89_ratio_refuted` |
| C90 | proved | `ShapeProps.v` | DFN: `C90_no_hole`, `C90_project`, `C90_moves`, `C90_merge`, `C90_moves_keep_area_refuted` |
| C91 | proved | `PoseProps.v` | DFN: `C91_orientation_unit`, `C91_start`, `C91_history`, `C91_norms`, `C91_null_orientation_refuted`; DF: `C91_any_update_refuted` |
| C92 | proved | `PoseProps.v` | DFN: `C92_position_error`; CDFN: `C92_rotation_error`, `C92_rotation_distance`, `C92_same_motion` |
| C93 | proved | `PoseAngles.v` | DFN: `C93_euler_matrix`, `C93_round_trip`, `C93_display`, `C93_camera_2`, `C93_camera_2_x_refuted`; CDFN: `C93_extraction_exists` |
| C94 | proved | `PoseAngles.v` | DFN: `C94_vector`, `C94_vector_exact`; CDFN: `C94_close_vectors_refuted`, `C94_small_variance_refuted`, `C94_extraction_exists` |
| C95 | proved | `LsdProps.v` | DFN: `C95_field`, `C95_level_line`, `C95_alignment`, `C95_wide_tolerance_refuted`, `C95_region` |
| C96 | proved | `LsdProps.v` | DFN: `C96_turns`, `C96_defined`, `C96_rectangle`, `C96_orientation`; CDFN: `C96_axis`, `C96_orientation_refuted` |
| C97 | proved | `LsdProps.v` | CDFN: `C97_detection`, `C97_min_size`, `C97_default_size`, `C97_count`, `C97_stateless` |
| C98 | proved | `LsdProps.v` | DFN: `C98_tolerance`, `C98_refinement` |
| C99 | proved | `LsdProps.v`, `LsdWitness.v` | none: `C99_quarters`; DF: `C99_colour`; CDFN: `C99_outside_refuted` |
| C100 | proved | `TumProps.v` | none: `C100_lines`, `C100_lines_unique`; CDFN: `C100_images`, `C100_image_map`, `C100_no_file`, `C100_ground_truth`, `C100_complete_lines`, `C100_associations`, `C100_no_junk`, `C100_dataset`, `C100_poses`, `C100_association_first`, `C100_empty_line_refuted`, `C100_cut_line_refuted` |
| C101 | proved | `DemoProps.v` | none: `C101_tum_frames`, `C101_tum_starts`, `C101_first_image_refuted`, `C101_cape_missing`, `C101_cape_quit`, `C101_cape_ends`, `C101_cape_forever`; DF: `C101_pace`, `C101_mean`; DFN: `C101_displayed_error`, `C101_exact_estimate_refuted` |
| C102 | proved | `GeodesicProps.v` | none: `C102_dilation_ends`, `C102_dilation`, `C102_dilation_steps`, `C102_dilation_none`, `C102_duality`, `C102_erosion`, `C102_holes`, `C102_holes_end`, `C102_no_centre_refuted`, `C102_zero_iterations_refuted`, `C102_hole_memory_refuted`, `C102_hole_border_refuted` |
| C103 | proved | `DisplayProps.v` | DFN: `C103_image`, `C103_point`, `C103_no_ray`, `C103_plane`, `C103_overlay`, `C103_near_plane_refuted`, `C103_only_matched_refuted`; CDFN: `C103_ray`, `C103_defined`; none: `C103_unmatched_plane`, `C103_count`, `C103_label`; DF: `C103_rate`, `C103_rate_refuted` |
| C104 | proved | `StatsProps.v` | DF: `C104_no_frame`, `C104_report`, `C104_one_object`, `C104_percents`, `C104_lines_refuted`, `C104_shared_refuted` |
| C105 | proved | `LineProps.v` | DFN: `C105_nearest`, `C105_history`, `C105_direction_refuted`, `C105_lines`, `C105_far_refuted`; D: `C105_segments`, `C105_apart` |
| C106 | proved | `DrawProps.v` | CDFN: `C106_count`, `C106_score`, `C106_empty`, `C106_less_refuted` |
| C107 | proved | `LoggerProps.v` | none: `C107_output_so_far`, `C107_output`, `C107_error_output`, `C107_one_kind`, `C107_mixed_refuted`, `C107_no_deadlock`, `C107_text`, `C107_all_shown` |
| C108 | proved | `DissolveProps.v` | none: `C108_cleaned`, `C108_uncrossed`, `C108_contacts`, `C108_rings`, `C108_area_and_turns`, `C108_areas`, `C108_missed_crossing_refuted` |
| C109 | proved | `FillProps.v` | none: `C109_combined`, `C109_filled`, `C109_shallow`, `C109_same_way`, `C109_holes`, `C109_kept`, `C109_island_refuted`, `C109_hole_filled_refuted`, `C109_largest_refuted` |
| C110 | proved | `MaskProps.v` | none: `C110_no_memory`, `C110_away`, `C110_found`, `C110_small_image`, `C110_radius_refuted` |
| C111 | proved | `CameraUseProps.v` | none: `C111_first_use`, `C111_one_camera`, `C111_inverse`, `C111_second_file_refuted`, `C111_before_load_refuted` |
| C112 | proved | `FamilyProps.v` | none: `C112_update`, `C112_no_change`, `C112_invalid_pose`, `C112_no_pose`, `C112_add_all`, `C112_find`, `C112_reset`, `C112_thrown_refuted` |
| C113 | proved | `OctaveProps.v` | none: `C113_lines`, `C113_inside`, `C113_numbers`, `C113_mask`, `C113_two`, `C113_other_ratio`, `C113_without_mask_refuted`, `C113_size_of_mask_refuted`, `C113_inside_refuted`, `C113_numbers_refuted`, `C113_narrow_refuted` |
| C114 | proved | `ImproveProps.v` | DFN: `C114_steps`, `C114_inside`, `C114_counts`; DF: `C114_pixels`, `C114_horizontal_refuted`, `C114_vertical_refuted`, `C114_tilted_refuted`; CDFN: `C114_all_aligned`, `C114_truncation`, `C114_vanishing`, `C114_factor_refuted`, `C114_value_refuted` |
| C115 | proved | `RandomThreadProps.v` | none: `C115_thread`, `C115_schedule`, `C115_one_thread`, `C115_same_draws`, `C115_tries`, `C115_pattern`, `C115_parallel_refuted`, `C115_independent_refuted`, `C115_drop_refuted` |
| C116 | proved | `CylinderDistanceProps.v` | DFN: `C116_distance`, `C116_sign`, `C116_similarity`, `C116_copy_refuted` |
| C117 | proved | `OddEvenProps.v` | none: `C117_filled`, `C117_corrected`, `C117_order` |
| C118 | proved | `CompareProps.v` | none: `C118_number`, `C118_count`, `C118_distance`, `C118_order`, `C118_image`, `C118_drawn` |
| C119 | proved | `FrameTaskProps.v` | none: `C119_schedule`, `C119_one_after_the_other`, `C119_ends`, `C119_no_race`, `C119_forced`, `C119_two_objects_refuted` |
| C120 | proved | `MissingDepthProps.v` | none: `C120_same_features`, `C120_cloud`, `C120_keypoint`, `C120_same_rectified`, `C120_rectified_nan_refuted` |
| C121 | proved | `RoundedGridProps.v` | CDFN: `C121_cell`, `C121_count`, `C121_radius`, `C121_candidates` |
| C122 | proved | `DescriptorProps.v` | none: `C122_container`, `C122_values`, `C122_followed` |
| C123 | proved | `ProportionProps.v` | CDFN: `C123_staged`, `C123_match`, `C123_planes`, `C123_cylinders`, `C123_zero_points`, `C123_stop`, `C123_stop_few_refuted` |
| C124 | proved | `RansacDrawProps.v` | CDFN: `C124_iterations`, `C124_draw`, `C124_success`, `C124_tries`, `C124_few_refuted`, `C124_threads_refuted` |
| C125 | proved | `GatherProps.v` | none: `C125_gathered`, `C125_sorted`, `C125_standard_refuted`; CDFN: `C125_reproducible_refuted` |
| C126 | proved | `RoundedCameraProps.v` | CDFN: `C126_round_trip`, `C126_projection`, `C126_world_to_camera`, `C126_world_to_screen` |
| C127 | proved | `RoundedSegmentProps.v` | CDFN: `C127_scatter`, `C127_least_squares`, `C127_almost_positive`, `C127_positive_refuted` |
| C128 | proved | `RoundedDepthMapProps.v`, `RoundedTransformProps.v` | CDFN: `C128_transformed`, `C128_target`, `C128_image`, `C128_kept`, `C128_defined`, `C128_identity_refuted`, `C128_defined_refuted` |
| C129 | proved | `RoundedCloudProps.v` | CDFN: `C129_cloud` |
| C130 | proved | `RoundedVarianceProps.v` | CDFN: `C130_close`, `C130_schedule`, `C130_symmetric`, `C130_positive`, `C130_accepted`, `C130_result` |
| C131 | proved | `VariationProps.v` | DFN: `C131_same_matches`, `C131_moves`; CDFN: `C131_same_decision`, `C131_iteration`, `C131_exact_features`, `C131_exact_accepted` |
