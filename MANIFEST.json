{
 "claims": [
  {
   "property": "C01",
   "status": "proved",
   "theorems": [
    "C01_exact_clique_is_exact"
   ],
   "note": ""
  },
  {
   "property": "C02",
   "status": "proved",
   "theorems": [
    "C02_heuristic_safe_and_bounded"
   ],
   "note": ""
  },
  {
   "property": "C03",
   "status": "proved",
   "theorems": [
    "C03_heuristic_size_is_a_clique_size",
    "C03_heuristic_never_overestimates"
   ],
   "note": ""
  },
  {
   "property": "C04",
   "status": "partial",
   "theorems": [
    "C04_accepted_indices_distinct_refuted",
    "C04_accepted_indices_adjacent_refuted",
    "C04_accepted_indices_star_partial",
    "C04_at_most_two_accepted_partial"
   ],
   "note": "REFUTED: the first k buffer entries handed to outlier rejection can repeat an index and can contain non-adjacent indices (4-vertex witnesses). Proved instead: the first entry is adjacent to all others, and the prefix is a clique when k <= 2 (and when adjacency is transitive, C05)."
  },
  {
   "property": "C05",
   "status": "proved",
   "theorems": [
    "C05_transitive_graphs_solved",
    "C05_all_consistent_all_kept"
   ],
   "note": ""
  },
  {
   "property": "C06",
   "status": "proved",
   "theorems": [
    "C06_incremental_only_improves",
    "C06_incremental_transitive_optimal",
    "C06_incremental_wraparound"
   ],
   "note": "row count assumed below 2^64 (size_t)"
  },
  {
   "property": "C07",
   "status": "proved",
   "theorems": [
    "C07_graph_from_matrix",
    "C07_only_strict_lower_triangle_matters",
    "C07_edges_symmetric_loop_free"
   ],
   "note": ""
  },
  {
   "property": "C08",
   "status": "proved",
   "theorems": [
    "C08_odometry_and_others_never_rejected"
   ],
   "note": ""
  },
  {
   "property": "C09",
   "status": "proved",
   "theorems": [
    "C09_nothing_fabricated"
   ],
   "note": ""
  },
  {
   "property": "C10",
   "status": "proved",
   "theorems": [
    "C10_which_loop_closures_enter"
   ],
   "note": ""
  },
  {
   "property": "C11",
   "status": "proved",
   "theorems": [
    "C11_classification_is_a_partition",
    "C11_containers",
    "C11_stored_factors"
   ],
   "note": "each between factor of a call has exactly one of seven fates; the containers after any history hold exactly the factors of the respective fates, in order"
  },
  {
   "property": "C12",
   "status": "proved",
   "theorems": [
    "C12_pairwise_record_is_faithful",
    "C12_landmark_record_is_faithful"
   ],
   "note": ""
  },
  {
   "property": "C13",
   "status": "partial",
   "theorems": [
    "C13_accepted_mutually_consistent_refuted",
    "C13_accepted_agree_with_one_partial",
    "C13_accepted_sightings_partial",
    "C13_accepted_agree_with_one_every_mode_partial"
   ],
   "note": "REFUTED: five closures between the same two poses of which two accepted ones fail the test in both orders. Positive: all accepted ones agree with the first; distinct if at most two; a largest mutually agreeing group if agreement is transitive; all if all agree (in either mode, after any removals, unless a record was copied from freed memory that had changed)."
  },
  {
   "property": "C14",
   "status": "partial",
   "theorems": [
    "C14_negative_pairwise_threshold_refuted",
    "C14_negative_threshold_landmarks_refuted",
    "C14_no_odometry_check",
    "C14_no_pairwise_check_partial",
    "C14_accepted_without_check"
   ],
   "note": "REFUTED: incremental selection drops closures although the pairwise check is off; landmark sightings are tested against the negative threshold and never accepted together. Positive: the odometry part, the pairwise part for pose-pose closures in non-incremental mode, and exactly what is accepted of a pair in either mode after any history with any removals."
  },
  {
   "property": "C15",
   "status": "proved",
   "theorems": [
    "C15_zero_threshold_test",
    "C15_zero_threshold_accepts_nothing"
   ],
   "note": "Both threshold tests, both signs of zero, IEEE comparison on spec_float with arbitrary error values; the square root and division of the norms are modelled, the error itself is arbitrary. History level needs the check to be enabled, see C16."
  },
  {
   "property": "C16",
   "status": "partial",
   "theorems": [
    "C16_parameter_sets_independent_refuted",
    "C16_parameter_sets_independent_simple_refuted",
    "C16_checks_enabled",
    "C16_parameter_sets_partial",
    "C16_parameter_sets_simple_partial"
   ],
   "note": "REFUTED: a negative threshold of the other method keeps both checks off. Exact characterisation for every sequence of setter calls, and the property itself when the other method's thresholds were never negative."
  },
  {
   "property": "C17",
   "status": "proved",
   "theorems": [
    "C17_when_update_optimises"
   ],
   "note": ""
  },
  {
   "property": "C18",
   "status": "proved",
   "theorems": [
    "C18_variables_are_those_supplied"
   ],
   "note": ""
  },
  {
   "property": "C19",
   "status": "proved",
   "theorems": [
    "C19_duplicate_value_changes_nothing_else",
    "C19_duplicate_value_plain_refuted"
   ],
   "note": "proved for a solver with outlier rejection, as the property says; without rejection the factors stay in the graph (second theorem)"
  },
  {
   "property": "C20",
   "status": "proved",
   "theorems": [
    "C20_ignore_and_revive",
    "C20_ignore_then_revive_restores",
    "C20_ignored_list"
   ],
   "note": ""
  },
  {
   "property": "C21",
   "status": "partial",
   "theorems": [
    "C21_remove_latest_refuted",
    "C21_remove_latest_partial",
    "C21_either_order",
    "C21_undefined_iff",
    "C21_undefined_always"
   ],
   "note": "REFUTED: undefined behaviour instead of null once the closures of a pair have been removed. Positive: for every history, if the call returns it returns and forgets the latest closure of the pair, in either order of the prefixes; and the removal is undefined exactly if the pair once had a closure and has none left (or, without the pairwise check, three or more)."
  },
  {
   "property": "C22",
   "status": "partial",
   "theorems": [
    "C22_reverse_order_refuted",
    "C22_reverse_order_partial",
    "C22_undefined_iff"
   ],
   "note": "REFUTED after removals by pair. Positive: without removals by pair, for any number of removals, interleaved with additions; and the exact condition under which the removal is undefined, for every history."
  },
  {
   "property": "C23",
   "status": "partial",
   "theorems": [
    "C23_usable_after_removal_refuted",
    "C23_undefined_iff",
    "C23_usable_after_removal_partial",
    "C23_completed_call",
    "C23_usable_partial",
    "C23_usable_without_check"
   ],
   "note": "REFUTED: two witnesses of undefined behaviour. Positive: C23_undefined_iff says exactly which calls are undefined, after every history with any removals (as long as no pairwise record was copied from freed memory that had changed); without that assumption, safe when removals hit pairs with no closure or at least three, and never undefined without the pairwise check."
  },
  {
   "property": "C24",
   "status": "partial",
   "theorems": [
    "C24_counts_refuted",
    "C24_total_partial",
    "C24_inliers_partial",
    "C24_inliers_kept",
    "C24_inliers_at_least"
   ],
   "note": "REFUTED: removal does not lower the count; a first sighting does not raise the inlier count. Positive: total ever stored; inlier count after calls with candidates, unchanged by all other calls."
  },
  {
   "property": "C25",
   "status": "partial",
   "theorems": [
    "C25_observations_accumulate_refuted",
    "C25_observations_since_first_partial"
   ],
   "note": "REFUTED: an observation from a pose whose value comes with the same call replaces all earlier ones. Positive: calls without such an observation only append."
  },
  {
   "property": "C26",
   "status": "partial",
   "theorems": [
    "C26_either_orientation_refuted",
    "C26_first_sighting_orientation_refuted",
    "C26_pose_to_landmark_partial",
    "C26_completed_history",
    "C26_usable_partial",
    "C26_exact_without_removals",
    "C26_last_discarded"
   ],
   "note": "REFUTED: after a landmark->pose observation the next observation is undefined. Positive: exact condition for every history: a call completes only if, of three or more observations kept for a landmark, none but the last starts from it, and if that holds it is not undefined; which observations are used and which discarded then; safe if landmarks only occur at the far end."
  },
  {
   "property": "C27",
   "status": "partial",
   "theorems": [
    "C27_priors_removed_exactly_refuted",
    "C27_priors_removed_exactly",
    "C27_priors_removed_exactly_plain",
    "C27_high_prefix",
    "C27_high_prefix_plain"
   ],
   "note": "REFUTED: a char above 127 is negative and equals no Symbol::chr(), so priors of such a robot are never removed (with either mode). Positive: exact for prefixes below 128; with rejection the pose priors of the solver's own dimension are removed; the model shows priors of the other dimension stay"
  },
  {
   "property": "C28",
   "status": "partial",
   "theorems": [
    "C28_graph_without_temporaries_refuted",
    "C28_temporaries_stay_temporary",
    "C28_temporary_variables",
    "C28_graph_without_temporaries",
    "C28_graph_without_temporaries_on_tracks",
    "C28_graph_without_temporaries_on_tracks_cov"
   ],
   "note": "REFUTED: temporary factors can move the pose a trajectory starts from, and with a landmark seen from two robots the graph then differs. Positive: always temporary in graph and estimate; graph equals that of the history without the temporary calls whenever first odometry comes with its start value (any pose type), or the history stays on the odometry (pose groups, both pose kinds)."
  },
  {
   "property": "C29",
   "status": "proved",
   "theorems": [
    "C29_known_inliers"
   ],
   "note": ""
  },
  {
   "property": "C30",
   "status": "proved",
   "theorems": [
    "C30_weights_match_graph",
    "C30_inlier_count"
   ],
   "note": "weights are rationals; rounding of the floating-point sum is covered by C67"
  },
  {
   "property": "C31",
   "status": "partial",
   "theorems": [
    "C31_reoptimisation_is_safe_refuted",
    "C31_safe_with_gnc_partial",
    "C31_safe_without_rejection_partial",
    "C31_safe_with_enough_odometry_partial",
    "C31_exactly_when_partial",
    "C31_every_outcome",
    "C31_every_outcome_force",
    "C31_first_is_safe"
   ],
   "note": "REFUTED: without GNC, when more loop closures were counted than the graph has factors, gnc_weights_.tail(latest_num_lc_) is too long. Positive: safe with GNC and without fixed inliers; safe without outlier rejection; safe in every configuration while odometry factors are at least as many as closures and sightings; in every configuration, how the next optimisation ends (success, either kind of undefined behaviour, or an exception) is determined exactly by the counted loop closures, the weights and the factors"
  },
  {
   "property": "C32",
   "status": "partial",
   "theorems": [
    "C32_fixed_inliers_refuted",
    "C32_fixed_inliers_throws_refuted",
    "C32_fixed_inliers_partial",
    "C32_history_partial"
   ],
   "note": "REFUTED: a loop closure rejected before GNC shifts the weights. Positive: over every history of additions (no removal, ignoring or reviving) in which the graph holds every stored loop closure, the request keeps exactly the closures to which the last GNC run gave a weight above one half"
  },
  {
   "property": "C33",
   "status": "partial",
   "theorems": [
    "C33_supplied_value_refuted",
    "C33_dead_reckoning",
    "C33_counter_and_relative_poses",
    "C33_relative_covariances",
    "C33_pose2_positive_definite",
    "C33_pose3_positive_definite"
   ],
   "note": "REFUTED in one word: the start is the current estimate of the first key, which an optimisation may have moved away from the supplied value. Everything else holds for every history, interleaved with any other calls: reference poses, counter, relative poses in both directions, for any pose group; and for covariances with any additive group action, as long as the Cholesky test answers as expected; for Pose2 and Pose3 with positive definite covariances it is proved to."
  },
  {
   "property": "C34",
   "status": "partial",
   "theorems": [
    "C34_any_direction_refuted",
    "C34_opposite_direction_error",
    "C34_odometry_test_partial",
    "C34_pairwise_test_partial",
    "C34_landmark_test",
    "C34_odometry_test_cov_partial",
    "C34_pairwise_test_cov_partial",
    "C34_pose2_odometry_test",
    "C34_pose3_odometry_test",
    "C34_pose2_pairwise_test",
    "C34_pose3_pairwise_test",
    "C34_all_consistent_all_accepted",
    "C44_all_consistent_every_mode_partial"
   ],
   "note": "REFUTED: two exact loop closures between two robots given in opposite directions fail the test (the error is the square of the inverse measurement). Positive: odometry test and same-direction pairs for any pose group, IEEE arithmetic included; for Pose2 and Pose3 with positive definite covariances without any assumption on the covariance of the error."
  },
  {
   "property": "C35",
   "status": "partial",
   "theorems": [
    "C35_no_rejection_refuted",
    "C35_graph_is_concatenation",
    "C35_updates_complete_partial",
    "C35_undefined_exactly",
    "C35_getters"
   ],
   "note": "REFUTED: debug output under LM dereferences the missing outlier rejection. Positive: the graph is the concatenation in every completed run; updates complete without debug output, logging and fixed inliers; C35_undefined_exactly says exactly which calls are undefined, after every history with exceptions caught"
  },
  {
   "property": "C36",
   "status": "partial",
   "theorems": [
    "C36_force_update_bypasses_refuted",
    "C36_force_update_partial",
    "C36_force_keeps_what_update_keeps"
   ],
   "note": "REFUTED: forceUpdate runs outlier rejection. Positive: true without outlier rejection and for all factors that are not loop closures; from every state forceUpdate keeps exactly the factors, variables and counts that update keeps"
  },
  {
   "property": "C37",
   "status": "proved",
   "theorems": [
    "C37_pairs_unordered",
    "C37_directions_kept_together"
   ],
   "note": "Hash compatibility for an arbitrary std::hash<char>; container statement over every reachable state."
  },
  {
   "property": "C38",
   "status": "partial",
   "theorems": [
    "C38_block_exchange_refuted",
    "C38_exact_roundtrip_refuted",
    "C38_file_contents",
    "C38_succeeds_iff_gaussian",
    "C38_exception",
    "C38_information_roundtrip",
    "C38_information_symmetric",
    "C38_keys_exact",
    "C38_numbers_six_digits",
    "C38_not_finite",
    "C38_solver_logging"
   ],
   "note": "REFUTED: the off-diagonal blocks of 3D information matrices are not permuted (only the diagonal blocks are exchanged), and numbers are written with six significant digits so that different matrices give the same file. Positive: exact description of the whole file down to characters; the loader that exchanges the diagonal blocks reads every entry back to six digits (exactly if it has at most six digits), a permuting loader gets the off-diagonal blocks transposed."
  },
  {
   "property": "C39",
   "status": "partial",
   "theorems": [
    "C39_other_values_kept_refuted",
    "C39_closures_drive_alignment_refuted",
    "C39_high_prefix_refuted",
    "C39_alignment",
    "C39_transform_from_graph",
    "C39_no_closure_not_moved",
    "C39_accepted_closures_hold"
   ],
   "note": "REFUTED: a landmark observed by two robots puts keys of one robot into the trajectory of the other and their values are overwritten; and a robot whose closures arrive before its odometry is never aligned; and a robot with a prefix above 127 comes first but is not recognised as the origin of its closures. Positive: for tidy histories (no landmark shared by robots, robots below 128) exact description of every value after every call, where the transform comes from, and that accepted closures hold afterwards if they agree."
  },
  {
   "property": "C40",
   "status": "partial",
   "theorems": [
    "C40_odometry_only_updates_refuted",
    "C40_odometry_only_updates_partial",
    "C40_with_alignment"
   ],
   "note": "REFUTED: multi-robot alignment overwrites optimised values by dead reckoning. Positive: true without alignment; with alignment, for tidy histories, exactly which estimates are replaced and by what (every known key with a dead-reckoned pose, by that pose in the frame of the first robot), all others keep their value"
  },
  {
   "property": "C41",
   "status": "proved",
   "theorems": [
    "C41_delivery_granularity",
    "C41_single_call_succeeds",
    "C41_incremental_refuted"
   ],
   "note": "Any factors without new variables, any split into calls (empty chunks allowed), any mix of update and forceUpdate, any optimiser answers in between, with or without alignment: identical PCM state and graph. Without alignment the single call is also shown to succeed. The incremental mode, excluded by the property, is shown to differ."
  },
  {
   "property": "C42",
   "status": "proved",
   "theorems": [
    "C42_base_update",
    "C42_remove_by_index"
   ],
   "note": "GenericSolver::update and removeFactorsNoUpdate used directly."
  },
  {
   "property": "C43",
   "status": "proved",
   "theorems": [
    "C43_no_undefined_behaviour",
    "C43_no_undefined_behaviour_with_odometry"
   ],
   "note": "the read of freed memory in removeLastLoopClosure is modelled as arbitrary contents"
  },
  {
   "property": "C44",
   "status": "partial",
   "theorems": [
    "C44_records_kept_refuted",
    "C44_records_kept_partial",
    "C13_accepted_agree_with_one_every_mode_partial",
    "C44_all_consistent_every_mode_partial",
    "C14_accepted_without_check"
   ],
   "note": "REFUTED: adj = adj.block(..) reads freed memory. Positive: in every mode and after any completed history with any removals, unless that memory had changed, the record is exactly that of the remaining closures (plus removed ones exactly if the pair is out of step), and the selection is made from it."
  },
  {
   "property": "C45",
   "status": "partial",
   "theorems": [
    "C45_usable_after_exception_refuted",
    "C45_first_call_refuted",
    "C45_usable_after_exception_partial",
    "C45_undefined_iff",
    "C45_with_bias_partial",
    "C45_repaired"
   ],
   "note": "REFUTED with odometry bias. Positive: with GNC and without fixed inliers, for every history without removals in which exceptions are caught, the next call is undefined exactly if odometry bias is on and it is a forceUpdate without factors that reaches the optimiser while outlier rejection holds more odometry and other factors than the graph; never without bias, never if every forceUpdate has factors, never right after a completed call that handed the graph over."
  },
  {
   "property": "C46",
   "status": "proved",
   "theorems": [
    "C46_calls_decide_the_graph",
    "C46_any_iteration_order",
    "C46_tracks_decide_the_graph",
    "C46_tracks_decide_the_graph_cov"
   ],
   "note": ""
  },
  {
   "property": "C47",
   "status": "proved",
   "theorems": [
    "C47_programs_save_the_same_graph",
    "C47_incremental_flag_refuted"
   ],
   "note": "Stated for the parsed command lines. The incremental flag, excluded by the property, is shown to change the result."
  },
  {
   "property": "C48",
   "status": "partial",
   "theorems": [
    "C48_incremental_saves_the_optimum_refuted",
    "C48_incremental_optimises_odometry_only",
    "C48_batch_saves_the_optimum"
   ],
   "note": "REFUTED for RpgoReadG2oIncremental: loop closures are handed over with optimisation switched off, so no optimiser ever sees the saved graph. Positive: exact graph that it does optimise; the property holds of RpgoReadG2o."
  },
  {
   "property": "C49",
   "status": "partial",
   "theorems": [
    "C49_incremental_needs_thresholds_refuted",
    "C49_batch_command_line",
    "C49_incremental_command_line",
    "C49_batch_configuration",
    "C49_incremental_configuration"
   ],
   "note": "REFUTED: only the exact value -1 is rejected together with the incremental flag; -2 also disables the check and then consistent loop closures are dropped. Positive: both programs start solving on exactly the described argument lists and with exactly the described configuration."
  },
  {
   "property": "C50",
   "status": "partial",
   "theorems": [
    "C50_empty_file_refuted",
    "C50_batch_never_undefined",
    "C50_incremental_never_undefined"
   ],
   "note": "REFUTED for a file without a first factor (nfg[0] unchecked). Positive: that is the only case, for both programs."
  },
  {
   "property": "C51",
   "status": "proved",
   "theorems": [
    "C51_well_formed_file_graph"
   ],
   "note": "Model goes down to the characters of the file; parsing of real numbers is an arbitrary function of the text."
  },
  {
   "property": "C52",
   "status": "partial",
   "theorems": [
    "C52_accepted_files_searchable_refuted",
    "C52_gr_files_read_refuted",
    "C52_reading_twice_refuted",
    "C52_any_file_tidy",
    "C52_in_range_searchable",
    "C52_second_reading_appends"
   ],
   "note": "REFUTED: entries outside the matrix are only reported and then make both searches leave their arrays; .gr files are accepted without being opened; reading into an object that already holds a graph appends without shifting neighbour indices. Positive: on a fresh object the lists are always symmetric, loop-free and duplicate-free with matching values above the threshold, and if all indices are in range both searches are correct."
  },
  {
   "property": "C53",
   "status": "partial",
   "theorems": [
    "C53_reading_is_defined_refuted",
    "C53_causes",
    "C53_endless_iff"
   ],
   "note": "REFUTED by four files: long first line (256-byte buffer), only comments after the banner (endless loop), missing value (uninitialised variable), smallest int as index (overflow). Positive: these are the only causes; reading is endless exactly if only comments follow an acceptable banner."
  },
  {
   "property": "C54",
   "status": "proved",
   "theorems": [
    "C54_estimates_are_answers"
   ],
   "note": "the optimiser is an arbitrary function of the requests so far"
  },
  {
   "property": "C55",
   "status": "partial",
   "theorems": [
    "C55_compose_2d",
    "C55_compose_3d",
    "C55_unique_2d",
    "C55_unique_3d",
    "C55_along_odometry_2d_partial",
    "C55_along_odometry_3d_partial",
    "C55_inverse_2d",
    "C55_inverse_3d",
    "C55_factorisation_2d",
    "C55_factorisation_3d",
    "C55_inverse_2d_refuted",
    "C55_inverse_3d_refuted",
    "C55_backwards_refuted",
    "C55_singular_refuted",
    "C55_rotationless_refuted"
   ],
   "note": "REFUTED: inverse() keeps the covariance although the error of an inverse is moved by the adjoint; between() against the direction of travel does the same; and for singular covariances (in particular those made when rotation information is missing) the factorisation called positive-semidefinite test fails and between() returns a negative covariance, so that in a whole run a loop closure a tenth of a standard deviation away is rejected. Positive: composition is right for all poses and covariances of both pose types, and along any chain of odometry with positive definite covariances relative poses carry the covariance of the product of the increments, after every history. Missing: distributions with infinitely many values and poses with irrational entries."
  },
  {
   "property": "C56",
   "status": "partial",
   "theorems": [
    "C56_thresholds_2d_refuted",
    "C56_rotation_information_2d_refuted",
    "C56_what_is_compared_2d",
    "C56_thresholds_3d",
    "C56_rotation_information_3d",
    "C56_kept_covariance_3d"
   ],
   "note": "REFUTED in the plane: tangent vectors of Pose2 are (x, y, theta) while the code takes the first component as rotation and the last two as translation; in whole runs an error along x within the translation threshold is rejected and a quarter turn beyond the rotation threshold accepted. Proved in space for all errors and covariances, from the values of the logarithm on pure translations and pure rotations."
  },
  {
   "property": "C57",
   "status": "partial",
   "theorems": [
    "C57_files_in_step_refuted",
    "C57_files_do_not_matter",
    "C57_status_file",
    "C57_rejection_file",
    "C57_files_agree_partial"
   ],
   "note": "REFUTED in the last clause: a forceUpdate without factors adds a line to the first file only and an update that does not optimise to the second only, so that files of equal length describe different calls. Positive: exact contents of both files after every history, exceptions included; the files agree if every call with factors logs and none comes without factors. Logging does not change what the solver does."
  },
  {
   "property": "C58",
   "status": "partial",
   "theorems": [
    "C58_matrix_file_refuted",
    "C58_matrix_file_partial",
    "C58_tests_on_disk_partial",
    "C58_tests_on_disk_removals",
    "C58_only_these_files",
    "C58_plain_keys_unsaved"
   ],
   "note": "REFUTED: with keys that are plain numbers the prefix is the NUL character, the name is cut off there and the path is that of the folder: no matrix is ever written. Positive: for prefixes that can be in a file name the file holds the matrix, hence the outcomes of the pairwise tests (of the closures left, followed by removed ones exactly if the pair is out of step); nothing else is written."
  },
  {
   "property": "C59",
   "status": "partial",
   "theorems": [
    "C59_weights_match_refuted",
    "C59_result_file",
    "C59_weights_file",
    "C59_weights_match_partial",
    "C59_exception"
   ],
   "note": "REFUTED for the weights: an odometry factor does not cause an optimisation, the longer graph is saved with the old weights. Positive: contents of both files after every history, with exceptions; as many weights as factors if the call optimised."
  },
  {
   "property": "C60",
   "status": "partial",
   "theorems": [
    "C60_switched_on_stays_on_refuted",
    "C60_settings",
    "C60_last_word_unique"
   ],
   "note": "REFUTED: setGncInlierCostThresholds and its sibling switch fixed inliers and odometry bias off again through their default arguments. Positive: every setting as a function of the sequence of setters."
  },
  {
   "property": "C61",
   "status": "partial",
   "theorems": [
    "C61_separated_refuted",
    "C61_arguments_refuted",
    "C61_separated_partial",
    "C61_own_file",
    "C61_exception",
    "C61_end",
    "C61_plain_keys",
    "C61_arguments"
   ],
   "note": "REFUTED: keys that are plain numbers have the NUL prefix and the name of the file is cut off after robot_; a variable that is not a pose stops the program and robots later in the order of signed characters get no file; with fewer than two arguments a string is made from a null pointer. Positive: exact files, contents down to characters, for poses of robots with ordinary prefixes; exact end and files with exceptions."
  },
  {
   "property": "C62",
   "status": "partial",
   "theorems": [
    "C62_stays_removed_refuted",
    "C62_later_calls_defined_refuted",
    "C62_plain_graph",
    "C62_stays_removed_partial",
    "C62_edits_undone"
   ],
   "note": "REFUTED with outlier rejection: the next call that hands a graph over brings the factors back; and removals can make later calls look at an empty slot or behind the end. Positive: without outlier rejection the graph is the fold of the edits for every history and emptied slots stay empty; with it, after such a call the graph is that of the history without the edits."
  },
  {
   "property": "C63",
   "status": "proved",
   "theorems": [
    "C63_gtsam_told",
    "C63_settings"
   ],
   "note": ""
  },
  {
   "property": "C64",
   "status": "partial",
   "theorems": [
    "C64_deviations_2d_refuted",
    "C64_shifts_2d_refuted",
    "C64_without_limit_refuted",
    "C64_deviations_3d",
    "C64_deviations_2d",
    "C64_shifts_3d",
    "C64_limit",
    "C64_agreeing_3d",
    "C64_agreeing_2d",
    "C64_outliers_dropped_3d",
    "C64_outliers_dropped_2d",
    "C64_aligned_3d",
    "C64_aligned_simple_3d",
    "C64_aligned_2d",
    "C64_aligned_simple_2d"
   ],
   "note": "REFUTED in the plane: sigmas.head and sigmas.tail assume that the rotation comes first, but Pose2 puts it last, so the rotation gets the deviation of translations and x that of rotations; and without a limit outliers move the average. Positive: right deviations in space, right limit, exact average of measurements that agree, exact removal of a far minority by the limit, accepted closures that agree hold after the alignment."
  },
  {
   "property": "C65",
   "status": "partial",
   "theorems": [
    "C65_counts_inliers_refuted",
    "C65_counts_inliers_partial",
    "C65_count_kept"
   ],
   "note": "REFUTED: the count is the integer part of the sum of weights, so two inliers of weight 3/5 count as one and three rejected ones of weight 2/5 as one. Positive: exact value after every history, never more than there are closures in the graph (no wrap-around), and the number of inliers if all weights are zero or one"
  },
  {
   "property": "C66",
   "status": "proved",
   "theorems": [
    "C66_no_overflow",
    "C66_arrays_fit",
    "C66_arrays_limit"
   ],
   "note": "PoseWithNode counters for every history with at most 2^28 odometry factors, exceptions included; arrays of the clique searches for at most 46341 closures per pair, which is sharp"
  },
  {
   "property": "C67",
   "status": "proved",
   "theorems": [
    "C67_count_in_doubles",
    "C67_binary_exact",
    "C67_model_agrees",
    "C67_nan_undefined",
    "C67_order_matters_refuted"
   ],
   "note": "every order of summation is a tree of rounded additions. Also: for binary weights the count of the solver model (rational weights) is the one in doubles; with other weights two orders can give different counts (witness), which the statement does not exclude"
  },
  {
   "property": "C68",
   "status": "proved",
   "theorems": [
    "C68_accepted_only_grow",
    "C14_accepted_without_check"
   ],
   "note": ""
  },
  {
   "property": "C69",
   "status": "proved",
   "theorems": [
    "C69_distance_2d",
    "C69_distance_3d",
    "C69_distance_sound",
    "C69_odometry_test_2d",
    "C69_odometry_test_3d",
    "C69_pairwise_test_2d",
    "C69_pairwise_test_3d",
    "C69_along_odometry_2d",
    "C69_along_odometry_3d",
    "C69_simple_thresholds"
   ],
   "note": "the quotient and the square root are rounded to double; sums and products before them are exact (see DESIGN)"
  },
  {
   "property": "C70",
   "status": "partial",
   "theorems": [
    "C70_threshold_refuted",
    "C70_covariance_refuted",
    "C70_simple_threshold_refuted",
    "C69_odometry_test_2d",
    "C69_pairwise_test_2d"
   ],
   "note": "REFUTED: a larger threshold, or wider covariances, lets a larger set of other closures agree, and accepted ones are dropped; single tests are monotone (C69)"
  },
  {
   "property": "C71",
   "status": "proved",
   "theorems": [
    "C71_arrival_of_odometry",
    "C71_arrival_of_odometry_cov",
    "C71_arrival_of_odometry_any_poses",
    "C71_early_closure_refuted"
   ],
   "note": "the proviso that closures come after the odometry that reaches their ends is needed: C71_early_closure_refuted (such a closure is dropped for good)"
  },
  {
   "property": "C72",
   "status": "proved",
   "theorems": [
    "C72_renaming",
    "C72_renaming_cov",
    "C72_renaming_caught",
    "C72_renaming_caught_cov",
    "C72_renaming_any_optimiser",
    "C72_renaming_any_optimiser_cov",
    "C72_zero_refuted",
    "C72_order_refuted"
   ],
   "note": "the provisos are needed: without zero staying zero for robots that share a landmark a call can throw (C72_zero_refuted), without keeping the order of prefixes alignment moves another robot (C72_order_refuted)"
  },
  {
   "property": "C73",
   "status": "proved",
   "theorems": [
    "C73_mixing",
    "C73_reordered_closures_partial",
    "C73_reordered_closures_without_check",
    "C73_closure_order_refuted"
   ],
   "note": "that the order of the candidates matters to what the pairwise check accepts is C73_closure_order_refuted (of two contradicting closures the first is kept); C73_reordered_closures_partial is named partial because it speaks of what is stored, not of what is accepted"
  },
  {
   "property": "C74",
   "status": "proved",
   "theorems": [
    "C74_two_robots",
    "C74_two_robots_no_removal",
    "C74_landmark"
   ],
   "note": "for closures between two robots and for landmarks, in every mode and with removals; removals from three or more closures copy freed memory, so with the pairwise check C74_two_robots asks that this memory was intact"
  },
  {
   "property": "C75",
   "status": "proved",
   "theorems": [
    "C75_no_test_is_passed",
    "C75_within_a_robot",
    "C75_only_alone",
    "C75_landmark_only_alone",
    "C75_after_odometry",
    "C75_after_odometry_graph",
    "C75_kept_out_refuted"
   ],
   "note": "double-precision model of the poses (Floats.v, IEEE 754 SpecFloat); C75_kept_out_refuted shows that 'only alone' cannot be improved to 'never'; C75_only_alone needs records_sound (no copy from changed freed memory)"
  },
  {
   "property": "C76",
   "status": "proved",
   "theorems": [
    "C76_replaced_exactly",
    "C76_graph_unaffected",
    "C76_all_or_nothing_refuted"
   ],
   "note": "C76_all_or_nothing_refuted: a call that ends with an exception has replaced some estimates; C76_graph_unaffected needs every robot's first pose in the call of its first odometry"
  },
  {
   "property": "C77",
   "status": "proved",
   "theorems": [
    "C77_search_exact",
    "C77_search_new_exact",
    "C77_pairs",
    "C77_landmarks"
   ],
   "note": "C77_pairs needs records_sound (no copy from changed freed memory) and, in incremental mode, fewer than 2^64 closures"
  },
  {
   "property": "C78",
   "status": "proved",
   "theorems": [
    "C78_group",
    "C78_batch",
    "C78_backed",
    "C78_alone",
    "C78_landmark_group",
    "C78_landmark_backed",
    "C78_overlap_refuted"
   ],
   "note": "records_sound: no copy from changed freed memory; in incremental mode fewer than 2^64 closures. C78_overlap_refuted shows that a majority that all agree is not enough if the others agree with one of them"
  },
  {
   "property": "C79",
   "status": "proved",
   "theorems": [
    "C79_by_pair",
    "C79_in_order",
    "C79_incremental_refuted"
   ],
   "note": "records_sound: no copy from changed freed memory. C79_incremental_refuted: in incremental mode a closure accepted before is replaced by the new selection"
  },
  {
   "property": "C80",
   "status": "proved",
   "theorems": [
    "C80_later",
    "C80_earlier",
    "C80_landmark_tests",
    "C80_majority",
    "C80_landmark_majority",
    "C80_half_refuted"
   ],
   "note": "PoseWithNode; poses form a group exactly (no rounding), logarithm of the identity is zero, thresholds positive, node counts below 2^53. C80_half_refuted shows that the majority is needed"
  },
  {
   "property": "C81",
   "status": "proved",
   "theorems": [
    "C81_rotation_unknown",
    "C81_rotation_known",
    "C81_no_test_is_passed",
    "C81_within_a_robot",
    "C81_only_alone",
    "C81_landmark_only_alone",
    "C81_after_odometry",
    "C81_not_exchanged",
    "C81_exact_undefined"
   ],
   "note": "double-precision model (Floats.v); Eigen's inverse is modelled by elimination without exchanges. records_sound: no copy from changed freed memory. As for C75, alone such a closure between robots is accepted (C81_example)"
  },
  {
   "property": "C82",
   "status": "proved",
   "theorems": [
    "C82_numbers",
    "C82_composition",
    "C82_inverse",
    "C82_dead_reckoning",
    "C82_odometry_test",
    "C82_pairwise_test",
    "C82_landmark_test",
    "C82_all_accepted",
    "C82_all_sightings_accepted",
    "C82_off_the_grid_refuted"
   ],
   "note": "double-precision model (Floats.v), PoseWithNode. Closures of a pair in one direction; node counts below 2^53; positions and measurements within 2^47 units. records_sound: no copy from changed freed memory. C82_off_the_grid_refuted shows that the grid is needed"
  },
  {
   "property": "C83",
   "status": "proved",
   "theorems": [
    "C83_odometry",
    "C83_closures",
    "C83_sightings",
    "C83_both_ways_refuted"
   ],
   "note": "PoseWithNode; unrounded poses: exact poses, or double precision on a grid (C82). Closures of a pair in one direction: C83_both_ways_refuted shows that this is needed. Fewer than 2^50 odometry factors per robot; incremental mode: fewer than 2^64 closures"
  },
  {
   "property": "C84",
   "status": "proved",
   "theorems": [
    "C84_everything",
    "C84_as_without_rejection"
   ],
   "note": "as C83; the pairwise check is on. Null pointers among the factors are left out (C84_as_without_rejection: there are none)"
  },
  {
   "property": "C85",
   "status": "proved",
   "theorems": [
    "C85_pose3",
    "C85_pose2",
    "C85_as_without_rejection",
    "C85_closures",
    "C85_sightings",
    "C85_plane_refuted"
   ],
   "note": "PoseWithCovariance with exact rational poses and covariances, logarithm and inverse arbitrary up to log(id)=0 and correct inverses of positive definite matrices. The pairwise check is on (C85_pose3, C85_pose2, C85_closures). C85_plane_refuted: in the plane, true sightings without information on rotations are rejected, because the code takes the first component of the tangent vector (x) for the rotation"
  },
  {
   "property": "C86",
   "status": "proved",
   "theorems": [
    "C86_left_out",
    "C86_closures",
    "C86_sightings"
   ],
   "note": "PoseWithNode; exact poses forming a group, logarithm of the identity zero, positive thresholds. The pairwise check is on; odometry has information on rotations; closures of a pair in one direction (C83_both_ways_refuted) and true ones in the majority (C80_half_refuted). Fewer than 2^50 odometry factors per robot; incremental mode: fewer than 2^64 closures. Which measurements are wrong is given; C86_sightings is about the sightings since the landmark's last introduction"
  },
  {
   "property": "C87",
   "status": "proved",
   "theorems": [
    "C87_left_out",
    "C87_as_never_given",
    "C87_closures",
    "C87_sightings"
   ],
   "note": "double-precision model (Floats.v) on a grid as in C82, or exact poses; PoseWithNode, positive thresholds. The pairwise check is on; odometry has information on rotations; closures of a pair in one direction (C83_both_ways_refuted) and true ones in the majority (C80_half_refuted). Positions and measurements within 2^47 units, fewer than 2^50 odometry factors per robot; incremental mode: fewer than 2^64 closures"
  },
  {
   "property": "C88",
   "status": "proved",
   "theorems": [
    "C88_left_out",
    "C88_as_never_given",
    "C88_closures",
    "C88_sightings"
   ],
   "note": "as C87, with as many wrong measurements as one likes: each may agree with fewer, itself counted, than there are true ones (with as many it fails: C80_half_refuted). Speaks of runs that end normally; without GNC a run with more closures than factors may not (C31)"
  },
  {
   "property": "C89",
   "status": "proved",
   "theorems": [
    "C89_left_out",
    "C89_as_never_given",
    "C89_closures",
    "C89_sightings",
    "C89_exact_fit"
   ],
   "note": "as C88 without the requirement that right measurements be exact, and for all thresholds. Measurements lie on the grid (or poses are exact); noise of the odometry is part of the poses X. C89_exact_fit: histories as in C88 are among these"
  },
  {
   "property": "C90",
   "status": "proved",
   "theorems": [
    "C90_any_order",
    "C90_calls_in_any_order",
    "C90_ties_refuted"
   ],
   "note": "for histories as in C89; without enough right measurements the order matters (C90_ties_refuted: of two that clash the earlier is kept)"
  }
 ]
}