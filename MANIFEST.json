{
 "claims": [
  {
   "property": "C01",
   "status": "proved",
   "theorems": [
    "C01_ids_unique_nonzero",
    "C01_ids_never_reused",
    "C01_local_map_runs_are_covered",
    "C01_promotion_keeps_id"
   ],
   "note": "Family of maps of any kinds sharing the allocator, fewer than 2^64 allocations."
  },
  {
   "property": "C02",
   "status": "proved",
   "theorems": [
    "C02_point_survival",
    "C02_plane_survival"
   ],
   "note": "Exact characterisation of every removal from the local map over all histories."
  },
  {
   "property": "C03",
   "status": "proved",
   "theorems": [
    "C03_point_update",
    "C03_plane_update",
    "C03_point_entry",
    "C03_plane_entry",
    "C03_no_pose",
    "C03_staged_kept_otherwise"
   ],
   "note": "Assumes, as the code does outside of error cases, that building a local feature from a staged one does not throw (see C07 for what happens otherwise)."
  },
  {
   "property": "C04",
   "status": "proved",
   "theorems": [
    "C04_written_once_and_complete",
    "C04_written_when_lost"
   ],
   "note": ""
  },
  {
   "property": "C05",
   "status": "proved",
   "theorems": [
    "C05_detections_accounted"
   ],
   "note": ""
  },
  {
   "property": "C07",
   "status": "proved",
   "theorems": [
    "C07_update_returns",
    "C07_update_returns_refuted"
   ],
   "note": "Termination under the stated condition, and the counter-example without it."
  },
  {
   "property": "C08",
   "status": "proved",
   "theorems": [
    "C08_invalid_covariance_rejected",
    "C08_deactivated_unchanged",
    "C08_deactivated_refuted"
   ],
   "note": "The statement includes the exception for upgrades."
  },
  {
   "property": "C09",
   "status": "proved",
   "theorems": [
    "C09_mark_outlier_frame",
    "C09_claim_removed"
   ],
   "note": ""
  },
  {
   "property": "C06",
   "status": "proved",
   "theorems": [
    "C06_points_exclusive",
    "C06_points2d_exclusive",
    "C06_planes_exclusive",
    "C06_point_find_returns",
    "C06_cross_kind_refuted"
   ],
   "note": "Landscape images (see C14); projection, descriptor distances and plane similarity are arbitrary."
  },
  {
   "property": "C14",
   "status": "proved",
   "theorems": [
    "C14_cell_index_in_range",
    "C14_landscape_images",
    "C14_cells_cover",
    "C14_set_never_out_of_range",
    "C14_portrait_refuted"
   ],
   "note": "Image sides up to 10^6 pixels."
  },
  {
   "property": "C15",
   "status": "proved",
   "theorems": [
    "C15_candidates_exact",
    "C15_complete_away_from_borders",
    "C15_completeness_refuted",
    "C15_advanced_search_not_wider"
   ],
   "note": ""
  },
  {
   "property": "C16",
   "status": "proved",
   "theorems": [
    "C16_found_carries_identifier",
    "C16_always_found",
    "C16_found_unmatched"
   ],
   "note": ""
  },
  {
   "property": "C10",
   "status": "proved",
   "theorems": [
    "C10_pose_is_last_optimised",
    "C10_one_frame",
    "C10_never_exits"
   ],
   "note": "For every sequence of frames and optimiser results. C10_never_exits needs covariances accepted by the validity test."
  },
  {
   "property": "C11",
   "status": "proved",
   "theorems": [
    "C11_lost_exactly",
    "C11_success_clears",
    "C11_second_frame_never_lost"
   ],
   "note": "Exact characterisation of the lost state by the trailing failures."
  },
  {
   "property": "C12",
   "status": "proved",
   "theorems": [
    "C12_redetection_schedule",
    "C12_every_five_frames"
   ],
   "note": "Exact schedule, including the counter of frames."
  },
  {
   "property": "C52",
   "status": "proved",
   "theorems": [
    "C52_tracking_maps_reachable",
    "C52_failed_frame_counts_a_miss"
   ],
   "note": "Every state of the tracking loop is reachable in the map system of C01 to C09."
  },
  {
   "property": "C13",
   "status": "proved",
   "theorems": [
    "C13_getters_report_last_load",
    "C13_sane_file_accepted",
    "C13_bad_file_rejected",
    "C13_intrinsics_fresh",
    "C13_intrinsics_are_those_of_the_first_call",
    "C13_intrinsics_fresh_2",
    "C13_intrinsics_are_those_of_the_first_call_2",
    "C13_negative_size_rejected_refuted",
    "C13_intrinsics_follow_parse_refuted"
   ],
   "note": "Values of the file as rational numbers or NaN. The intrinsics matrices are cached by the first call."
  },
  {
   "property": "C53",
   "status": "proved",
   "theorems": [
    "C53_construct_iff_valid",
    "C53_after_unreadable_file",
    "C53_default_fallback_refuted"
   ],
   "note": ""
  },
  {
   "property": "C17",
   "status": "proved",
   "theorems": [
    "C17_flow_sound",
    "C17_flow_complete",
    "C17_identifiers_stay_distinct"
   ],
   "note": "For every answer of the optical flow library that has one entry per given point."
  },
  {
   "property": "C18",
   "status": "proved",
   "theorems": [
    "C18_schedule_independent",
    "C18_every_complete_schedule_ends",
    "C18_inside_windows",
    "C18_window_quota",
    "C18_window_quota_refuted",
    "C18_best_points_kept",
    "C18_best_points_reported"
   ],
   "note": "All interleavings of the workers of the windows. The quota is exceeded only by equal scores."
  },
  {
   "property": "C54",
   "status": "proved",
   "theorems": [
    "C54_depth_read_in_bounds"
   ],
   "note": ""
  },
  {
   "property": "C55",
   "status": "proved",
   "theorems": [
    "C55_every_frame_served",
    "C55_container_follows_image_refuted"
   ],
   "note": ""
  },
  {
   "property": "C56",
   "status": "proved",
   "theorems": [
    "C56_windows_cover",
    "C56_windows_disjoint"
   ],
   "note": ""
  },
  {
   "property": "C19",
   "status": "proved",
   "theorems": [
    "C19_classification",
    "C19_throwing_test_ends_the_program"
   ],
   "note": "Scores are binary64 numbers."
  },
  {
   "property": "C20",
   "status": "proved",
   "theorems": [
    "C20_self_consistent",
    "C20_ends",
    "C20_optimized_pose",
    "C20_inliers_of_the_final_pose_refuted",
    "C20_failure_leaves_sets_empty_refuted"
   ],
   "note": "Optimiser, inlier test and shuffles are oracles. A read of shared data gives the last value written: the data races of the unlocked reads are not given C++ undefined behaviour."
  },
  {
   "property": "C21",
   "status": "proved",
   "theorems": [
    "C21_sequential_one_kind",
    "C21_keeps_the_best_refuted",
    "C21_sequential_mixed_refuted"
   ],
   "note": "The property is false in general; proved for sequential runs on one kind of match, refuted otherwise."
  },
  {
   "property": "C22",
   "status": "proved",
   "theorems": [
    "C22_random_subset",
    "C22_throws_iff_not_enough",
    "C22_score_exact",
    "C22_fixed_size",
    "C22_fixed_size_reached"
   ],
   "note": "Comparisons of the binary64 sums of scores with 1 are exact."
  },
  {
   "property": "C23",
   "status": "proved",
   "theorems": [
    "C23_never_under_determined",
    "C23_enough_is_optimised",
    "C23_residuals"
   ],
   "note": ""
  },
  {
   "property": "C24",
   "status": "proved",
   "theorems": [
    "C24_variance",
    "C24_enough_samples",
    "C24_order_independent",
    "C24_succeeds",
    "C24_from_samples_refuted"
   ],
   "note": "Over the reals; the LDLT test is an oracle."
  },
  {
   "property": "C25",
   "status": "proved",
   "theorems": [
    "C25_always_unit",
    "C25_round_trip",
    "C25_round_trip_coefficients",
    "C25_pose_round_trip",
    "C25_round_trip_everywhere_refuted",
    "C25_pole"
   ],
   "note": "Over the reals."
  },
  {
   "property": "C26",
   "status": "proved",
   "theorems": [
    "C26_other_entries",
    "C26_diagonal_entries",
    "C26_jacobian_refuted"
   ],
   "note": "Over the reals. The property is false; the exact entries that are right and wrong are proved."
  },
  {
   "property": "C57",
   "status": "proved",
   "theorems": [
    "C57_estimator_accepts",
    "C57_residuals",
    "C57_no_stale_residual",
    "C57_no_stale_residual_refuted"
   ],
   "note": "Over the reals."
  },
  {
   "property": "C27",
   "status": "proved",
   "theorems": [
    "C27_removed_cell_proposed_only_from_bin_one",
    "C27_removed_cell_not_proposed_refuted"
   ],
   "note": "The property is false for bin 1, and proved for all other bins."
  },
  {
   "property": "C28",
   "status": "proved",
   "theorems": [
    "C28_counters_after_init",
    "C28_needs_valid_bins",
    "C28_bin_in_range",
    "C28_most_frequent",
    "C28_counters_after_removals",
    "C28_bin_one_counter_refuted"
   ],
   "note": "Bins of angles in binary64 arithmetic, for angles in the ranges of acos and atan2."
  },
  {
   "property": "C29",
   "status": "proved",
   "theorems": [
    "C29_terminates",
    "C29_result_unique"
   ],
   "note": "Fits and merge tests are oracles; cylinder groups are disjoint (C36)."
  },
  {
   "property": "C30",
   "status": "proved",
   "theorems": [
    "C30_exactly_reachable",
    "C30_inside_and_free",
    "C30_from_any_state"
   ],
   "note": ""
  },
  {
   "property": "C31",
   "status": "proved",
   "theorems": [
    "C31_one_plane_by_cell",
    "C31_labels_kept",
    "C31_start",
    "C31_parts"
   ],
   "note": ""
  },
  {
   "property": "C32",
   "status": "proved",
   "theorems": [
    "C32_labels",
    "C32_not_merged_was_refused"
   ],
   "note": ""
  },
  {
   "property": "C33",
   "status": "proved",
   "theorems": [
    "C33_sound",
    "C33_symmetric",
    "C33_complete",
    "C33_complete_refuted",
    "C33_inside_matrix"
   ],
   "note": ""
  },
  {
   "property": "C58",
   "status": "proved",
   "theorems": [
    "C58_only_seed_twice",
    "C58_every_cell_once_refuted",
    "C58_merged_points",
    "C58_planes_fitted_on_their_cells",
    "C58_merged_in_one_plane_refuted"
   ],
   "note": "The property is false; what repetitions exist is proved."
  },
  {
   "property": "C59",
   "status": "proved",
   "theorems": [
    "C59_masks"
   ],
   "note": ""
  },
  {
   "property": "C60",
   "status": "proved",
   "theorems": [
    "C60_seed_is_minimal"
   ],
   "note": ""
  },
  {
   "property": "C34",
   "status": "proved",
   "theorems": [
    "C34_expansion",
    "C34_order_and_grouping_free",
    "C34_statistics"
   ],
   "note": "Real arithmetic."
  },
  {
   "property": "C35",
   "status": "proved",
   "theorems": [
    "C35_scatter",
    "C35_plane",
    "C35_least_squares",
    "C35_refused",
    "C35_perfect_planes_refused"
   ],
   "note": "Real arithmetic; the eigenvalue solver is an oracle assumed correct where stated."
  },
  {
   "property": "C36",
   "status": "proved",
   "theorems": [
    "C36_parts",
    "C36_cells_of_parts",
    "C36_extraction_with_cylinders"
   ],
   "note": ""
  },
  {
   "property": "C37",
   "status": "proved",
   "theorems": [
    "C37_reported_radius",
    "C37_radius_of_the_original",
    "C37_mean_radius_refuted"
   ],
   "note": "The property is false for every cylinder, as stated."
  },
  {
   "property": "C61",
   "status": "proved",
   "theorems": [
    "C61_planar_cell",
    "C61_whole_row_refuted",
    "C61_whole_column_refuted"
   ],
   "note": "Real arithmetic."
  },
  {
   "property": "C62",
   "status": "proved",
   "theorems": [
    "C62_best_cylinder",
    "C62_stops_when_enough_refuted"
   ],
   "note": ""
  },
  {
   "property": "C63",
   "status": "proved",
   "theorems": [
    "C63_least_squares",
    "C63_exact",
    "C63_exact_hypothesis"
   ],
   "note": "Real arithmetic."
  },
  {
   "property": "C38",
   "status": "proved",
   "theorems": [
    "C38_one_slot_by_pixel",
    "C38_cells_are_contiguous",
    "C38_same_cloud_for_every_schedule",
    "C38_stores_in_range",
    "C38_any_size_refuted"
   ],
   "note": "The size of the cells divides the size of the image, as the statement says; the refutation shows it is needed."
  },
  {
   "property": "C39",
   "status": "proved",
   "theorems": [
    "C39_value_of_one_source",
    "C39_same_image_for_every_schedule",
    "C39_first_row_and_column_null",
    "C39_defined_iff_projections_not_negative",
    "C39_one_result_refuted",
    "C39_always_defined_refuted"
   ],
   "note": "Proved when no two pixels share a target, refuted otherwise, as the statement says. Also: undefined behaviour when a pixel projects left of or above the image."
  },
  {
   "property": "C40",
   "status": "proved",
   "theorems": [
    "C40_lines_and_faces",
    "C40_closed_boundary",
    "C40_vertices",
    "C40_points_never_resolved",
    "C40_point_references_the_next_vertex",
    "C40_points_refuted"
   ],
   "note": "Lines and faces proved, point elements refuted as the statement says."
  },
  {
   "property": "C41",
   "status": "proved",
   "theorems": [
    "C41_xyz",
    "C41_pcd",
    "C41_announced_number_refuted"
   ],
   "note": "The announced number is refuted, as the statement says."
  },
  {
   "property": "C42",
   "status": "proved",
   "theorems": [
    "C42_every_rgb_once",
    "C42_depth_at_most_once",
    "C42_paired_images_are_close"
   ],
   "note": "Before the final sort, whose comparison is not an order in general (C44)."
  },
  {
   "property": "C43",
   "status": "proved",
   "theorems": [
    "C43_stable",
    "C43_images_without_depth"
   ],
   "note": "For every order of equal scores."
  },
  {
   "property": "C44",
   "status": "proved",
   "theorems": [
    "C44_strict_order_iff_no_crossing",
    "C44_strict_order_refuted"
   ],
   "note": "Refuted in general, as the statement says; proved exactly when no pairs cross."
  },
  {
   "property": "C64",
   "status": "proved",
   "theorems": [
    "C64_closest_ground_truth",
    "C64_attached_is_close"
   ],
   "note": ""
  },
  {
   "property": "C45",
   "status": "proved",
   "theorems": [
    "C45_screen_camera_screen",
    "C45_camera_screen_camera",
    "C45_intrinsics_invertible",
    "C45_screen_points_accepted",
    "C45_only_in_front_refuted",
    "C45_same_pixel_same_ray"
   ],
   "note": "Real arithmetic."
  },
  {
   "property": "C46",
   "status": "proved",
   "theorems": [
    "C46_inverse",
    "C46_inverse_exists",
    "C46_distances",
    "C46_camera_center",
    "C46_translation"
   ],
   "note": "Real arithmetic."
  },
  {
   "property": "C47",
   "status": "proved",
   "theorems": [
    "C47_distances",
    "C47_round_trip",
    "C47_inverse_exists",
    "C47_angles"
   ],
   "note": "Real arithmetic."
  },
  {
   "property": "C48",
   "status": "proved",
   "theorems": [
    "C48_axes",
    "C48_plane_space_plane",
    "C48_space_plane_space",
    "C48_construct",
    "C48_moves",
    "C48_project",
    "C48_project_same_plane",
    "C48_transform",
    "C48_transform_refuted"
   ],
   "note": "Real arithmetic; boundaries without inner rings (C90 covers holes); refuted for transform, as the statement says."
  },
  {
   "property": "C65",
   "status": "proved",
   "theorems": [
    "C65_pixel",
    "C65_metric",
    "C65_plane",
    "C65_plane_refuted"
   ],
   "note": "Real arithmetic."
  },
  {
   "property": "C66",
   "status": "proved",
   "theorems": [
    "C66_closest_points",
    "C66_line_distance",
    "C66_parallel_direction"
   ],
   "note": "Real arithmetic."
  },
  {
   "property": "C67",
   "status": "proved",
   "theorems": [
    "C67_area_is_current",
    "C67_simplify",
    "C67_biggest",
    "C67_merge",
    "C67_merge_keeps_plane",
    "C67_merge_keeps_polygon_refuted"
   ],
   "note": "The geometry library (boost) is an oracle."
  },
  {
   "property": "C49",
   "status": "proved",
   "theorems": [
    "C49_constructor",
    "C49_recovers_the_point",
    "C49_recovers_the_parameters",
    "C49_recovers_the_parameters_at_the_poles_refuted",
    "C49_closest_is_far",
    "C49_furthest_is_far_or_behind",
    "C49_bracket_refuted",
    "C49_seen_at_its_pixel"
   ],
   "note": "Real arithmetic."
  },
  {
   "property": "C68",
   "status": "proved",
   "theorems": [
    "C68_jacobians_are_inverse",
    "C68_cartesian",
    "C68_spherical",
    "C68_from_cartesian",
    "C68_to_world",
    "C68_screen"
   ],
   "note": "Real arithmetic."
  },
  {
   "property": "C69",
   "status": "proved",
   "theorems": [
    "C69_screen_covariance_valid",
    "C69_exact_after_center",
    "C69_variances",
    "C69_covariance_refuted",
    "C69_moves"
   ],
   "note": "Real arithmetic."
  },
  {
   "property": "C70",
   "status": "proved",
   "theorems": [
    "C70_reduced_jacobian",
    "C70_normal_rows",
    "C70_distance_row",
    "C70_distance_variance",
    "C70_distance_variance_refuted",
    "C70_round_trip",
    "C70_round_trip_refuted",
    "C70_valid",
    "C70_reduced_valid"
   ],
   "note": "Real arithmetic."
  },
  {
   "property": "C71",
   "status": "proved",
   "theorems": [
    "C71_smallest_difference",
    "C71_null_iff_same",
    "C71_small_difference"
   ],
   "note": "Real arithmetic."
  },
  {
   "property": "C72",
   "status": "proved",
   "theorems": [
    "C72_distance_to_the_line",
    "C72_distance_to_the_segment_refuted"
   ],
   "note": "Real arithmetic."
  },
  {
   "property": "C73",
   "status": "proved",
   "theorems": [
    "C73_predictions_are_unit",
    "C73_constant_velocity",
    "C73_at_rest",
    "C73_reset",
    "C73_constant_rotation",
    "C73_rotation_refuted",
    "C73_variance"
   ],
   "note": "Real arithmetic. The call in rgbd_slam.cpp is compiled out."
  },
  {
   "property": "C50",
   "status": "proved",
   "theorems": [
    "C50_validity_test",
    "C50_pseudo_inverse",
    "C50_update",
    "C50_refuses",
    "C50_measured",
    "C50_exact_measurement",
    "C50_certain_state",
    "C50_one_dimension",
    "C50_scalar"
   ],
   "note": "Any ordered field, every dimension. Eigen's LDLT sign test is modelled as positive semi-definiteness and its pseudo inverse as a full rank factorisation, shown to be the Moore-Penrose inverse."
  },
  {
   "property": "C74",
   "status": "proved",
   "theorems": [
    "C74_covariance_valid",
    "C74_refusals",
    "C74_never_less_certain",
    "C74_invalid_init",
    "C74_refused_dynamics_refuted"
   ],
   "note": "Any ordered field, every dimension."
  },
  {
   "property": "C75",
   "status": "proved",
   "theorems": [
    "C75_history",
    "C75_track",
    "C75_moving",
    "C75_moving_refuted"
   ],
   "note": "Any ordered field."
  },
  {
   "property": "C76",
   "status": "proved",
   "theorems": [
    "C76_history",
    "C76_track",
    "C76_refused",
    "C76_throw_changes_refuted"
   ],
   "note": "Any ordered field; normalisation and polygon merge are arbitrary functions."
  },
  {
   "property": "C77",
   "status": "proved",
   "theorems": [
    "C77_created",
    "C77_history",
    "C77_failed_update",
    "C77_read_back",
    "C77_never_more_certain_than_first_pose",
    "C77_measured_refuted",
    "C77_failed_update_moves_refuted"
   ],
   "note": "Any ordered field; the changes of coordinates are arbitrary lawful functions, C49_recovers_the_point and C68_jacobians_are_inverse show the laws for the real ones out of the poles."
  },
  {
   "property": "C51",
   "status": "proved",
   "theorems": [
    "C51_ends",
    "C51_numbers_tried",
    "C51_numbers_grow_refuted",
    "C51_vertices",
    "C51_no_crossing",
    "C51_next_vertex",
    "C51_points_left_out",
    "C51_encloses_refuted",
    "C51_few_points"
   ],
   "note": "The neighbour search and the sort are arbitrary for the termination, lawful for the rest; exact_oracles shows lawful ones exist. Real arithmetic."
  },
  {
   "property": "C78",
   "status": "proved",
   "theorems": [
    "C78_plane_match",
    "C78_first_plane_refuted",
    "C78_reversed_plane_refuted",
    "C78_keypoint_match",
    "C78_tracked_point",
    "C78_untracked_point",
    "C78_point2d_refuted"
   ],
   "note": "Common areas, projections and descriptor distances are oracles; numbers are rational."
  },
  {
   "property": "C79",
   "status": "proved",
   "theorems": [
    "C79_merge_test",
    "C79_growth",
    "C79_symmetry_refuted"
   ],
   "note": "Real arithmetic."
  },
  {
   "property": "C80",
   "status": "proved",
   "theorems": [
    "C80_boundary_cells",
    "C80_boundary_points",
    "C80_reads_in_image",
    "C80_never_terminates",
    "C80_border_exists",
    "C80_enough_points"
   ],
   "note": "OpenCV's erode and dilate are modelled by their documented minimum and maximum; the construction of the polygon is an oracle here (see C51 and the polygon properties)."
  },
  {
   "property": "C81",
   "status": "proved",
   "theorems": [
    "C81_kept",
    "C81_thick_region",
    "C81_whole_grid_refuted",
    "C81_reported"
   ],
   "note": "OpenCV's erode, dilate and minMaxLoc are modelled by their documented meaning."
  },
  {
   "property": "C82",
   "status": "proved",
   "theorems": [
    "C82_point_inlier",
    "C82_plane_inlier",
    "C82_plane_inlier_angle",
    "C82_point2d_close",
    "C82_point2d_inlier_refuted",
    "C82_point_variation",
    "C82_plane_variation",
    "C82_plane_variation_refuted",
    "C82_point2d_variation"
   ],
   "note": "Real arithmetic; the draws are arbitrary."
  },
  {
   "property": "C83",
   "status": "proved",
   "theorems": [
    "C83_in_range",
    "C83_all_reached",
    "C83_dropped"
   ],
   "note": "The rounding is Flocq's binary64 rounding to nearest even."
  },
  {
   "property": "C84",
   "status": "proved",
   "theorems": [
    "C84_upgraded_iff",
    "C84_covariance",
    "C84_not_upgraded",
    "C84_first_place",
    "C84_new_point",
    "C84_new_interval",
    "C84_monotone",
    "C84_uncertain_upgraded_refuted"
   ],
   "note": "Real arithmetic; the validity tests of the covariances are oracles."
  },
  {
   "property": "C85",
   "status": "proved",
   "theorems": [
    "C85_point_created",
    "C85_point_update",
    "C85_point_history",
    "C85_point_invalid_pose_refuted",
    "C85_point2d_created",
    "C85_point2d_update",
    "C85_point2d_history",
    "C85_plane_created",
    "C85_plane_update",
    "C85_plane_history",
    "C85_plane_by_the_origin_refuted"
   ],
   "note": "Over any ordered field; normalisation of planes, polygon merges and jacobians are oracles."
  },
  {
   "property": "C86",
   "status": "proved",
   "theorems": [
    "C86_point_visible",
    "C86_accepted",
    "C86_clamped_in_image",
    "C86_visible_part",
    "C86_half_visible",
    "C86_point2d_visible",
    "C86_point2d_behind_refuted",
    "C86_plane_visible",
    "C86_plane_behind_refuted"
   ],
   "note": "Real arithmetic; boost's intersection of a segment and a ring is an oracle that gives the crossing points, the overlap of polygons is an arbitrary oracle."
  },
  {
   "property": "C87",
   "status": "proved",
   "theorems": [
    "C87_count",
    "C87_rays",
    "C87_sound",
    "C87_complete",
    "C87_refine",
    "C87_orthogonal_rays_refuted",
    "C87_symmetric_refuted"
   ],
   "note": "Real arithmetic; a division by zero and the root of a negative number are not numbers."
  },
  {
   "property": "C88",
   "status": "proved",
   "theorems": [
    "C88_fit",
    "C88_refused",
    "C88_vertices",
    "C88_concave_hull",
    "C88_biggest_part_refuted"
   ],
   "note": "Real arithmetic. The hulls, validity, repair and simplification are arbitrary oracles; for the vertices they pick points of their input, which is proved for the concave hull of the code."
  },
  {
   "property": "C89",
   "status": "proved",
   "theorems": [
    "C89_areas",
    "C89_parts",
    "C89_failure",
    "C89_ratio",
    "C89_ratio_refuted"
   ],
   "note": "Real arithmetic. The intersection and the union of boundaries are oracles whose areas satisfy the laws of ShapeSpec.overlaps."
  },
  {
   "property": "C90",
   "status": "proved",
   "theorems": [
    "C90_no_hole",
    "C90_project",
    "C90_moves",
    "C90_merge",
    "C90_moves_keep_area_refuted"
   ],
   "note": "Real arithmetic; boost's union, validity and simplification are oracles."
  },
  {
   "property": "C91",
   "status": "proved",
   "theorems": [
    "C91_orientation_unit",
    "C91_start",
    "C91_history",
    "C91_norms",
    "C91_any_update_refuted",
    "C91_null_orientation_refuted"
   ],
   "note": "Real arithmetic: the drift by rounding is not modelled."
  },
  {
   "property": "C92",
   "status": "proved",
   "theorems": [
    "C92_position_error",
    "C92_rotation_error",
    "C92_rotation_distance",
    "C92_same_motion"
   ],
   "note": "Real arithmetic."
  },
  {
   "property": "C93",
   "status": "proved",
   "theorems": [
    "C93_euler_matrix",
    "C93_round_trip",
    "C93_display",
    "C93_camera_2",
    "C93_camera_2_x_refuted",
    "C93_extraction_exists"
   ],
   "note": "Real arithmetic; Eigen's extraction of the angles of a matrix is an oracle that gives the matrix back."
  },
  {
   "property": "C94",
   "status": "proved",
   "theorems": [
    "C94_vector",
    "C94_vector_exact",
    "C94_close_vectors_refuted",
    "C94_small_variance_refuted",
    "C94_extraction_exists"
   ],
   "note": "Real arithmetic; Eigen's extraction is an oracle with the documented range."
  },
  {
   "property": "C95",
   "status": "proved",
   "theorems": [
    "C95_field",
    "C95_level_line",
    "C95_alignment",
    "C95_wide_tolerance_refuted",
    "C95_region"
   ],
   "note": "Real arithmetic; cv::fastAtan2 is an oracle in [0, 360) degrees."
  },
  {
   "property": "C96",
   "status": "proved",
   "theorems": [
    "C96_turns",
    "C96_defined",
    "C96_rectangle",
    "C96_axis",
    "C96_orientation",
    "C96_orientation_refuted"
   ],
   "note": "Real arithmetic; cv::fastAtan2 is an oracle with a given accuracy."
  },
  {
   "property": "C97",
   "status": "proved",
   "theorems": [
    "C97_detection",
    "C97_min_size",
    "C97_default_size",
    "C97_count",
    "C97_stateless"
   ],
   "note": "Real arithmetic; the blur, the change of size and the sort are oracles, the sort is any lawful one. No refinement, as in Line_Detection."
  },
  {
   "property": "C98",
   "status": "proved",
   "theorems": [
    "C98_tolerance",
    "C98_refinement"
   ],
   "note": "Real arithmetic. The standard refinement; the advanced one is not modelled."
  },
  {
   "property": "C99",
   "status": "proved",
   "theorems": [
    "C99_quarters",
    "C99_colour",
    "C99_outside_refuted"
   ],
   "note": "Real arithmetic; the closing of the depth mask is any mask. The witness goes through the whole detection of an 11 x 11 image."
  },
  {
   "property": "C100",
   "status": "proved",
   "theorems": [
    "C100_lines",
    "C100_lines_unique",
    "C100_images",
    "C100_image_map",
    "C100_no_file",
    "C100_ground_truth",
    "C100_complete_lines",
    "C100_associations",
    "C100_no_junk",
    "C100_dataset",
    "C100_poses",
    "C100_association_first",
    "C100_empty_line_refuted",
    "C100_cut_line_refuted"
   ],
   "note": "The conversion of characters to a number is an oracle with finite values; IEEE doubles."
  },
  {
   "property": "C101",
   "status": "proved",
   "theorems": [
    "C101_tum_frames",
    "C101_tum_starts",
    "C101_first_image_refuted",
    "C101_cape_missing",
    "C101_cape_quit",
    "C101_cape_ends",
    "C101_cape_forever",
    "C101_pace",
    "C101_mean",
    "C101_displayed_error",
    "C101_exact_estimate_refuted"
   ],
   "note": "Frame indices wrap at 2^32; durations and positions are reals. The keys and the readable images are inputs."
  },
  {
   "property": "C102",
   "status": "proved",
   "theorems": [
    "C102_dilation_ends",
    "C102_dilation",
    "C102_dilation_steps",
    "C102_dilation_none",
    "C102_duality",
    "C102_erosion",
    "C102_holes",
    "C102_holes_end",
    "C102_no_centre_refuted",
    "C102_zero_iterations_refuted",
    "C102_hole_memory_refuted",
    "C102_hole_border_refuted"
   ],
   "note": "Dilation and erosion of OpenCV are defined with its default border."
  },
  {
   "property": "C103",
   "status": "proved",
   "theorems": [
    "C103_image",
    "C103_point",
    "C103_ray",
    "C103_no_ray",
    "C103_unmatched_plane",
    "C103_plane",
    "C103_overlay",
    "C103_defined",
    "C103_rate",
    "C103_count",
    "C103_label",
    "C103_near_plane_refuted",
    "C103_rate_refuted",
    "C103_only_matched_refuted"
   ],
   "note": "The image is the ordered list of what is drawn; the effect of OpenCV on pixels is not modelled. Real arithmetic, with the range of int for the pixels."
  },
  {
   "property": "C104",
   "status": "proved",
   "theorems": [
    "C104_no_frame",
    "C104_report",
    "C104_one_object",
    "C104_percents",
    "C104_lines_refuted",
    "C104_shared_refuted"
   ],
   "note": "Durations are reals; a system is a number, and the operations of all of them are one history."
  },
  {
   "property": "C105",
   "status": "proved",
   "theorems": [
    "C105_nearest",
    "C105_history",
    "C105_direction_refuted",
    "C105_segments",
    "C105_apart",
    "C105_lines",
    "C105_far_refuted"
   ],
   "note": "Real arithmetic; the intersection of Boost is an oracle with a law."
  },
  {
   "property": "C106",
   "status": "proved",
   "theorems": [
    "C106_count",
    "C106_score",
    "C106_empty",
    "C106_less_refuted"
   ],
   "note": "Draws and the accumulated score are rounded as doubles; the results are characterised exactly."
  },
  {
   "property": "C107",
   "status": "proved",
   "theorems": [
    "C107_output_so_far",
    "C107_output",
    "C107_error_output",
    "C107_one_kind",
    "C107_mixed_refuted",
    "C107_no_deadlock",
    "C107_text",
    "C107_all_shown"
   ],
   "note": "Threads interleave between characters; streams never fail."
  },
  {
   "property": "C108",
   "status": "proved",
   "theorems": [
    "C108_cleaned",
    "C108_uncrossed",
    "C108_contacts",
    "C108_rings",
    "C108_area_and_turns",
    "C108_areas",
    "C108_missed_crossing_refuted"
   ],
   "note": "Exact integer coordinates (unit 2^-1074); the crossings found by boost are an argument. The hypothesis planar says that a walk that leaves a crossing by one edge does not leave it by the other one; it is a fact of the curves of the plane and is not derived here from the coordinates. The example is a figure eight. The refuted theorem gives an outline whose crossing is ignored."
  },
  {
   "property": "C109",
   "status": "proved",
   "theorems": [
    "C109_combined",
    "C109_filled",
    "C109_shallow",
    "C109_same_way",
    "C109_holes",
    "C109_kept",
    "C109_island_refuted",
    "C109_hole_filled_refuted",
    "C109_largest_refuted"
   ],
   "note": "The operations of boost are arguments with their laws on the points off the outlines (record polygon_laws), which are shown to hold for polygons made of the cells of a grid. std::sort is any order by decreasing area."
  },
  {
   "property": "C110",
   "status": "proved",
   "theorems": [
    "C110_no_memory",
    "C110_away",
    "C110_found",
    "C110_small_image",
    "C110_radius_refuted"
   ],
   "note": "The pixels of a drawn disc and the corners of an image are oracles with laws; the refinement stays in its window of three pixels, as in OpenCV. The radius of the parameters does not hold after the refinement (C110_radius_refuted)."
  },
  {
   "property": "C111",
   "status": "proved",
   "theorems": [
    "C111_first_use",
    "C111_one_camera",
    "C111_inverse",
    "C111_second_file_refuted",
    "C111_before_load_refuted"
   ],
   "note": "The function local static variables that keep parameters of the first camera. The mix of two cameras after a second load is proved of the model (C111_second_file_refuted, C111_before_load_refuted)."
  },
  {
   "property": "C112",
   "status": "proved",
   "theorems": [
    "C112_update",
    "C112_no_change",
    "C112_invalid_pose",
    "C112_no_pose",
    "C112_add_all",
    "C112_find",
    "C112_reset",
    "C112_thrown_refuted"
   ],
   "note": "Identifiers below 2^64. The work of one kind is said in terms of the operations of a single map, which are the subject of C01-C09."
  },
  {
   "property": "C113",
   "status": "proved",
   "theorems": [
    "C113_lines",
    "C113_inside",
    "C113_numbers",
    "C113_mask",
    "C113_two",
    "C113_other_ratio",
    "C113_without_mask_refuted",
    "C113_size_of_mask_refuted",
    "C113_inside_refuted",
    "C113_numbers_refuted",
    "C113_narrow_refuted"
   ],
   "note": "Rationals instead of floats; the detector of one image is any function. The known defects are proved of the model (_refuted theorems)."
  },
  {
   "property": "C114",
   "status": "proved",
   "theorems": [
    "C114_steps",
    "C114_inside",
    "C114_pixels",
    "C114_counts",
    "C114_all_aligned",
    "C114_truncation",
    "C114_vanishing",
    "C114_horizontal_refuted",
    "C114_vertical_refuted",
    "C114_tilted_refuted",
    "C114_factor_refuted",
    "C114_value_refuted"
   ],
   "note": "Reals instead of doubles; log_gamma is exact where its value matters. The known defects are proved of the model (_refuted theorems)."
  },
  {
   "property": "C115",
   "status": "proved",
   "theorems": [
    "C115_thread",
    "C115_schedule",
    "C115_one_thread",
    "C115_same_draws",
    "C115_tries",
    "C115_pattern",
    "C115_parallel_refuted",
    "C115_independent_refuted",
    "C115_drop_refuted"
   ],
   "note": "The generator, the distributions and the works are any functions of the engine of a thread. The known defects are proved of the model (_refuted theorems)."
  },
  {
   "property": "C116",
   "status": "proved",
   "theorems": [
    "C116_distance",
    "C116_sign",
    "C116_similarity",
    "C116_copy_refuted"
   ],
   "note": "Reals instead of doubles. The known defects are proved of the model (_refuted theorem)."
  },
  {
   "property": "C117",
   "status": "proved",
   "theorems": [
    "C117_filled",
    "C117_corrected",
    "C117_order"
   ],
   "note": "The operations of boost and std::sort are arguments with their laws; the rings cut in an outline are an argument (C108)."
  },
  {
   "property": "C118",
   "status": "proved",
   "theorems": [
    "C118_number",
    "C118_count",
    "C118_distance",
    "C118_order",
    "C118_image",
    "C118_drawn"
   ],
   "note": "The pixels of a drawn segment are an argument."
  },
  {
   "property": "C119",
   "status": "proved",
   "theorems": [
    "C119_schedule",
    "C119_one_after_the_other",
    "C119_ends",
    "C119_no_race",
    "C119_forced",
    "C119_two_objects_refuted"
   ],
   "note": "Tasks are programs over shared places, executed in any interleaving; the places each detector accesses are hypotheses read from the code."
  },
  {
   "property": "C120",
   "status": "proved",
   "theorems": [
    "C120_same_features",
    "C120_cloud",
    "C120_keypoint",
    "C120_same_rectified",
    "C120_rectified_nan_refuted"
   ],
   "note": "Floating point numbers are NaN, infinities or rationals with an arbitrary rounding; the detection of planes in the cloud is a function of the cloud."
  },
  {
   "property": "C121",
   "status": "proved",
   "theorems": [
    "C121_cell",
    "C121_count",
    "C121_radius",
    "C121_candidates"
   ],
   "note": "Doubles are reals of the Flocq format of 53 bits, rounded to nearest even at every operation; overflow is excluded by the bounds on the positions."
  },
  {
   "property": "C122",
   "status": "proved",
   "theorems": [
    "C122_container",
    "C122_values",
    "C122_followed"
   ],
   "note": "A matrix is a header on a shared buffer; the positions and filters of the features are not in this model."
  },
  {
   "property": "C123",
   "status": "proved",
   "theorems": [
    "C123_staged",
    "C123_match",
    "C123_planes",
    "C123_cylinders",
    "C123_zero_points",
    "C123_stop",
    "C123_stop_few_refuted"
   ],
   "note": "Doubles and floats are reals of the Flocq formats of 53 and 24 bits, rounded to nearest even at every operation."
  },
  {
   "property": "C124",
   "status": "proved",
   "theorems": [
    "C124_iterations",
    "C124_draw",
    "C124_success",
    "C124_tries",
    "C124_few_refuted",
    "C124_threads_refuted"
   ],
   "note": "Probabilities are counts over all orders and sequences of orders; the shuffle is taken uniform. The refuted theorems give the sets of matches and of threads for which 80 percent is not reached."
  },
  {
   "property": "C125",
   "status": "proved",
   "theorems": [
    "C125_gathered",
    "C125_sorted",
    "C125_standard_refuted",
    "C125_reproducible_refuted"
   ],
   "note": "The merge is the one of the GNU library, also on lists that are not sorted, where the standard defines nothing; the refuted theorems show that such lists are met and that the order depends on addresses."
  },
  {
   "property": "C126",
   "status": "proved",
   "theorems": [
    "C126_round_trip",
    "C126_projection",
    "C126_world_to_camera",
    "C126_world_to_screen"
   ],
   "note": "Doubles are reals of the Flocq format of 53 bits, rounded to nearest even at every operation; overflow is excluded by the sizes. The inverse of the intrinsics is computed as Eigen does, by cofactors; the inverse of the pose is given."
  },
  {
   "property": "C127",
   "status": "proved",
   "theorems": [
    "C127_scatter",
    "C127_least_squares",
    "C127_almost_positive",
    "C127_positive_refuted"
   ],
   "note": "Floats and doubles are reals of the Flocq formats of 24 and 53 bits, rounded to nearest even at every operation; overflow is not modelled. The eigenvalue solver is an oracle assumed correct on the computed matrix."
  },
  {
   "property": "C128",
   "status": "proved",
   "theorems": [
    "C128_transformed",
    "C128_target",
    "C128_image",
    "C128_kept",
    "C128_defined",
    "C128_identity_refuted",
    "C128_defined_refuted"
   ],
   "note": "The refuted theorems give a camera and a depth whose measure moves, and one whose conversion is undefined. Floats and doubles are reals of the Flocq formats, rounded to nearest even at every operation; overflow is not modelled."
  },
  {
   "property": "C129",
   "status": "proved",
   "theorems": [
    "C129_cloud"
   ],
   "note": "Floats and doubles are reals of the Flocq formats, rounded to nearest even at every operation; overflow is not modelled. Schedules are the interleavings of the stores of the rows, as in C38."
  },
  {
   "property": "C130",
   "status": "proved",
   "theorems": [
    "C130_close",
    "C130_schedule",
    "C130_symmetric",
    "C130_positive",
    "C130_accepted",
    "C130_result"
   ],
   "note": "The poses of the variations are an oracle, as in C24. The tests of Eigen (isApprox, LDLT) are oracles assumed to accept equal matrices and positive definite ones. Doubles are reals of the Flocq format, rounded to nearest even at every operation; overflow is not modelled."
  },
  {
   "property": "C131",
   "status": "proved",
   "theorems": [
    "C131_same_matches",
    "C131_moves",
    "C131_same_decision",
    "C131_iteration",
    "C131_exact_features",
    "C131_exact_accepted"
   ],
   "note": "The minimisation is an oracle, a function of the pose and of the matches; the draws are arguments. Reals are exact. The normal of a plane may vanish under a draw (C82_plane_variation_refuted)."
  }
 ]
}