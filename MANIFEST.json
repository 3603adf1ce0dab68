{
 "claims": [
  {
   "property": "C01",
   "status": "proved",
   "theorems": [
    "C01_plain_lawful",
    "C01_variant_lawful",
    "C01_partition",
    "C01_no_undefined_behaviour"
   ],
   "note": ""
  },
  {
   "property": "C02",
   "status": "proved",
   "theorems": [
    "C02_stored_under_own_uuid"
   ],
   "note": ""
  },
  {
   "property": "C03",
   "status": "proved",
   "theorems": [
    "C03_add"
   ],
   "note": ""
  },
  {
   "property": "C04",
   "status": "proved",
   "theorems": [
    "C04_update_track_lists"
   ],
   "note": ""
  },
  {
   "property": "C05",
   "status": "proved",
   "theorems": [
    "C05_counters",
    "C05_bound_needed"
   ],
   "note": "C05_bound_needed shows the bound on the number of updates is exact."
  },
  {
   "property": "C06",
   "status": "proved",
   "theorems": [
    "C06_never_demoted"
   ],
   "note": ""
  },
  {
   "property": "C07",
   "status": "proved",
   "theorems": [
    "C07_promotion_latency"
   ],
   "note": ""
  },
  {
   "property": "C08",
   "status": "proved",
   "theorems": [
    "C08_removal_latency"
   ],
   "note": ""
  },
  {
   "property": "C09",
   "status": "proved",
   "theorems": [
    "C09_set_promotion"
   ],
   "note": ""
  },
  {
   "property": "C10",
   "status": "proved",
   "theorems": [
    "C10_reset_promotion_neutral_refuted"
   ],
   "note": "The expectation is false; refuted with a reachable state."
  },
  {
   "property": "C11",
   "status": "proved",
   "theorems": [
    "C11_set_removal"
   ],
   "note": ""
  },
  {
   "property": "C12",
   "status": "proved",
   "theorems": [
    "C12_order_irrelevant",
    "C12_getter_order"
   ],
   "note": ""
  },
  {
   "property": "C13",
   "status": "proved",
   "theorems": [
    "C13_non_interference"
   ],
   "note": ""
  },
  {
   "property": "C14",
   "status": "proved",
   "theorems": [
    "C14_keys_only"
   ],
   "note": ""
  },
  {
   "property": "C15",
   "status": "proved",
   "theorems": [
    "C15_plain_fields",
    "C15_plain_copy",
    "C15_variant_copy",
    "C15_variant_fields"
   ],
   "note": ""
  },
  {
   "property": "C16",
   "status": "proved",
   "theorems": [
    "C16_strong_exception_guarantee_refuted"
   ],
   "note": "The expectation is false; refuted with a reachable state; C15_variant_copy gives the exact effect."
  },
  {
   "property": "C17",
   "status": "proved",
   "theorems": [
    "C17_inverted_thresholds"
   ],
   "note": ""
  },
  {
   "property": "C18",
   "status": "proved",
   "theorems": [
    "C18_get_occurrences"
   ],
   "note": ""
  },
  {
   "property": "C19",
   "status": "proved",
   "theorems": [
    "C19_score_map"
   ],
   "note": ""
  },
  {
   "property": "C20",
   "status": "proved",
   "theorems": [
    "C20_euclidean_same_model",
    "C20_mahalanobis_same_model",
    "C20_euclidean_value",
    "C20_mahalanobis_value",
    "C20_score_map_same_model"
   ],
   "note": ""
  },
  {
   "property": "C21",
   "status": "proved",
   "theorems": [
    "C21_gating",
    "C21_gating_idempotent",
    "C21_gating_commutes"
   ],
   "note": ""
  },
  {
   "property": "C22",
   "status": "proved",
   "theorems": [
    "C22_nan_survives"
   ],
   "note": ""
  },
  {
   "property": "C23",
   "status": "proved",
   "theorems": [
    "C23_ctrv_formula",
    "C23_ctra_formula",
    "C23_ctrv_metric",
    "C23_ctra_metric"
   ],
   "note": ""
  },
  {
   "property": "C24",
   "status": "proved",
   "theorems": [
    "C24_seam_refuted",
    "C24_seam_ctra_refuted"
   ],
   "note": ""
  },
  {
   "property": "C25",
   "status": "proved",
   "theorems": [
    "C25_ctrv",
    "C25_ctra",
    "C25_identity",
    "C25_ctrv_formula",
    "C25_ctra_formula",
    "C25_diagonal",
    "C25_block"
   ],
   "note": ""
  },
  {
   "property": "C26",
   "status": "proved",
   "theorems": [
    "C26_contract_satisfiable",
    "C26_one_to_one"
   ],
   "note": ""
  },
  {
   "property": "C27",
   "status": "proved",
   "theorems": [
    "C27_optimal_on_complete_maps"
   ],
   "note": ""
  },
  {
   "property": "C28",
   "status": "proved",
   "theorems": [
    "C28_gated_pairs_not_associated_refuted",
    "C28_unscored_pair_associated"
   ],
   "note": ""
  },
  {
   "property": "C29",
   "status": "proved",
   "theorems": [
    "C29_missing_pair_erases_values"
   ],
   "note": ""
  },
  {
   "property": "C30",
   "status": "proved",
   "theorems": [
    "C30_optimal_after_gating_refuted"
   ],
   "note": ""
  },
  {
   "property": "C31",
   "status": "proved",
   "theorems": [
    "C31_empty_map_undefined",
    "C31_all_zero_undefined"
   ],
   "note": ""
  },
  {
   "property": "C32",
   "status": "proved",
   "theorems": [
    "C32_defined",
    "C32_costs"
   ],
   "note": ""
  },
  {
   "property": "C33",
   "status": "proved",
   "theorems": [
    "C33_square_padding",
    "C33_padding_neutral"
   ],
   "note": ""
  },
  {
   "property": "C34",
   "status": "proved",
   "theorems": [
    "C34_has_association",
    "C34_has_association_variant"
   ],
   "note": ""
  },
  {
   "property": "C35",
   "status": "proved",
   "theorems": [
    "C35_get_element_at"
   ],
   "note": ""
  },
  {
   "property": "C36",
   "status": "proved",
   "theorems": [
    "C36_order",
    "C36_failure",
    "C36_fields"
   ],
   "note": ""
  },
  {
   "property": "C37",
   "status": "proved",
   "theorems": [
    "C37_mixed",
    "C37_otherwise",
    "C37_pipeline"
   ],
   "note": ""
  },
  {
   "property": "C38",
   "status": "proved",
   "theorems": [
    "C38_swap",
    "C38_self",
    "C38_bounds",
    "C38_order"
   ],
   "note": ""
  },
  {
   "property": "C39",
   "status": "proved",
   "theorems": [
    "C39_covariance",
    "C39_mean",
    "C39_self",
    "C39_ctrv",
    "C39_ctra",
    "C39_objects"
   ],
   "note": ""
  },
  {
   "property": "C40",
   "status": "proved",
   "theorems": [
    "C40_information",
    "C40_covariance"
   ],
   "note": ""
  },
  {
   "property": "C41",
   "status": "proved",
   "theorems": [
    "C41_seam_refuted"
   ],
   "note": ""
  },
  {
   "property": "C42",
   "status": "proved",
   "theorems": [
    "C42_terminates",
    "C42_partition"
   ],
   "note": ""
  },
  {
   "property": "C43",
   "status": "proved",
   "theorems": [
    "C43_geometry",
    "C43_rule"
   ],
   "note": ""
  },
  {
   "property": "C44",
   "status": "proved",
   "theorems": [
    "C44_together_refuted"
   ],
   "note": ""
  },
  {
   "property": "C45",
   "status": "proved",
   "theorems": [
    "C45_cutoff",
    "C45_states",
    "C45_distance_refuted"
   ],
   "note": ""
  },
  {
   "property": "C46",
   "status": "proved",
   "theorems": [
    "C46_contents",
    "C46_absent",
    "C46_is_empty",
    "C46_remove",
    "C46_centroid"
   ],
   "note": ""
  },
  {
   "property": "C47",
   "status": "proved",
   "theorems": [
    "C47_mean",
    "C47_clusters"
   ],
   "note": ""
  },
  {
   "property": "C48",
   "status": "proved",
   "theorems": [
    "C48_clear_refuted",
    "C48_duplicate_refuted"
   ],
   "note": ""
  },
  {
   "property": "C49",
   "status": "proved",
   "theorems": [
    "C49_heading",
    "C49_common_refuted"
   ],
   "note": ""
  },
  {
   "property": "C50",
   "status": "proved",
   "theorems": [
    "C50_get_angle",
    "C50_equal_angles",
    "C50_add_mod",
    "C50_sub_mod",
    "C50_add_comm",
    "C50_add_assoc",
    "C50_add_zero",
    "C50_sub_undoes_add"
   ],
   "note": ""
  },
  {
   "property": "C51",
   "status": "proved",
   "theorems": [
    "C51_closed_range",
    "C51_half_open_refuted"
   ],
   "note": ""
  },
  {
   "property": "C52",
   "status": "proved",
   "theorems": [
    "C52_ctrv_solves",
    "C52_ctrv_only_solution"
   ],
   "note": ""
  },
  {
   "property": "C53",
   "status": "proved",
   "theorems": [
    "C53_ctrv_compose",
    "C53_ctrv_zero",
    "C53_ctrv_back",
    "C53_band_refuted"
   ],
   "note": ""
  },
  {
   "property": "C54",
   "status": "proved",
   "theorems": [
    "C54_ctrv_displacement",
    "C54_ctrv_straight"
   ],
   "note": ""
  },
  {
   "property": "C55",
   "status": "proved",
   "theorems": [
    "C55_ctra_solves",
    "C55_ctra_only_solution"
   ],
   "note": ""
  },
  {
   "property": "C56",
   "status": "proved",
   "theorems": [
    "C56_ctra_compose",
    "C56_ctra_zero",
    "C56_ctra_back",
    "C56_ctra_extends_ctrv"
   ],
   "note": ""
  },
  {
   "property": "C57",
   "status": "proved",
   "theorems": [
    "C57_ctrv_noise",
    "C57_ctra_noise",
    "C57_no_noise_ctrv",
    "C57_no_noise_ctra"
   ],
   "note": ""
  },
  {
   "property": "C58",
   "status": "proved",
   "theorems": [
    "C58_frozen",
    "C58_frozen_witness"
   ],
   "note": ""
  },
  {
   "property": "C59",
   "status": "proved",
   "theorems": [
    "C59_weights"
   ],
   "note": ""
  },
  {
   "property": "C60",
   "status": "proved",
   "theorems": [
    "C60_points",
    "C60_linear",
    "C60_ctrv",
    "C60_ctra",
    "C60_others"
   ],
   "note": ""
  },
  {
   "property": "C61",
   "status": "proved",
   "theorems": [
    "C61_symmetric",
    "C61_default",
    "C61_parameters"
   ],
   "note": ""
  },
  {
   "property": "C62",
   "status": "proved",
   "theorems": [
    "C62_same",
    "C62_exchanged",
    "C62_default",
    "C62_documented_refuted"
   ],
   "note": ""
  },
  {
   "property": "C63",
   "status": "proved",
   "theorems": [
    "C63_frame",
    "C63_variant",
    "C63_twice",
    "C63_predict"
   ],
   "note": ""
  },
  {
   "property": "C64",
   "status": "proved",
   "theorems": [
    "C64_zero_time_refuted",
    "C64_ctrv",
    "C64_ctra"
   ],
   "note": ""
  },
  {
   "property": "C65",
   "status": "proved",
   "theorems": [
    "C65_make_track"
   ],
   "note": ""
  },
  {
   "property": "C66",
   "status": "proved",
   "theorems": [
    "C66_uuid_equality",
    "C66_uuid_strict_total_order",
    "C66_uuid_operators_consistent",
    "C66_uuid_lexicographic"
   ],
   "note": ""
  },
  {
   "property": "C67",
   "status": "proved",
   "theorems": [
    "C67_layout",
    "C67_surplus",
    "C67_short_is_undefined",
    "C67_throws"
   ],
   "note": ""
  },
  {
   "property": "C68",
   "status": "proved",
   "theorems": [
    "C68_detections",
    "C68_tracks",
    "C68_ctrv",
    "C68_ctra",
    "C68_unsupported",
    "C68_undefined",
    "C68_json_error",
    "C68_no_other"
   ],
   "note": ""
  },
  {
   "property": "C69",
   "status": "proved",
   "theorems": [
    "C69_nearest",
    "C69_unique",
    "C69_monotone",
    "C69_idempotent",
    "C69_odd",
    "C69_matrix",
    "C69_float_monotone",
    "C69_float_odd",
    "C69_float_idempotent",
    "C69_float_near"
   ],
   "note": ""
  },
  {
   "property": "C70",
   "status": "proved",
   "theorems": [
    "C70_state_ctrv",
    "C70_state_ctra",
    "C70_vector_ctrv",
    "C70_vector_ctra",
    "C70_augmented"
   ],
   "note": ""
  },
  {
   "property": "C71",
   "status": "proved",
   "theorems": [
    "C71_uuids",
    "C71_fused",
    "C71_separates",
    "C71_cycle",
    "C71_defined",
    "C71_inverted_thresholds",
    "C71_no_pair_undefined",
    "C71_library"
   ],
   "note": ""
  },
  {
   "property": "C72",
   "status": "proved",
   "theorems": [
    "C72_as_many_scored_pairs_as_possible"
   ],
   "note": ""
  },
  {
   "property": "C73",
   "status": "proved",
   "theorems": [
    "C73_consistent"
   ],
   "note": ""
  },
  {
   "property": "C74",
   "status": "proved",
   "theorems": [
    "C74_ctrv",
    "C74_ctra"
   ],
   "note": ""
  },
  {
   "property": "C75",
   "status": "proved",
   "theorems": [
    "C75_centroid_refuted"
   ],
   "note": ""
  },
  {
   "property": "C76",
   "status": "proved",
   "theorems": [
    "C76_seam_refuted"
   ],
   "note": ""
  },
  {
   "property": "C77",
   "status": "proved",
   "theorems": [
    "C77_fields",
    "C77_fields_ctrv",
    "C77_heading",
    "C77_heading_ctra",
    "C77_again",
    "C77_again_ctra",
    "C77_idempotent_refuted",
    "C77_augmented"
   ],
   "note": ""
  },
  {
   "property": "C78",
   "status": "proved",
   "theorems": [
    "C78_history",
    "C78_every_second_update"
   ],
   "note": ""
  },
  {
   "property": "C79",
   "status": "proved",
   "theorems": [
    "C79_vector_ctrv",
    "C79_vector_ctra",
    "C79_vector_noise",
    "C79_vector_augmented_ctrv",
    "C79_vector_augmented_ctra",
    "C79_ctrv_add",
    "C79_ctrv_sub",
    "C79_ctra_add",
    "C79_ctra_sub"
   ],
   "note": ""
  },
  {
   "property": "C80",
   "status": "proved",
   "theorems": [
    "C80_angle_times_integer",
    "C80_angle_times",
    "C80_divide_then_multiply",
    "C80_multiply_then_divide",
    "C80_scale_by_integer",
    "C80_scale",
    "C80_scale_linear_refuted",
    "C80_average_faces_backwards"
   ],
   "note": ""
  },
  {
   "property": "C81",
   "status": "proved",
   "theorems": [
    "C81_reflexive",
    "C81_symmetric",
    "C81_ctra_reflexive",
    "C81_ctra_symmetric",
    "C81_noise",
    "C81_equal_states",
    "C81_ctra_equal_states",
    "C81_equal_noises",
    "C81_exact_refuted",
    "C81_transitive_refuted",
    "C81_headings",
    "C81_double_reflexive",
    "C81_double_reflexive_ctra",
    "C81_double_equal",
    "C81_double_equal_ctra"
   ],
   "note": ""
  },
  {
   "property": "C82",
   "status": "proved",
   "theorems": [
    "C82_object_round_trip",
    "C82_part_round_trip",
    "C82_file_round_trip"
   ],
   "note": ""
  },
  {
   "property": "C83",
   "status": "proved",
   "theorems": [
    "C83_ctrv_accuracy",
    "C83_ctra_accuracy"
   ],
   "note": ""
  },
  {
   "property": "C84",
   "status": "proved",
   "theorems": [
    "C84_collapse",
    "C84_positive_distance_refuted"
   ],
   "note": ""
  },
  {
   "property": "C85",
   "status": "proved",
   "theorems": [
    "C85_best_by_margin",
    "C85_separated",
    "C85_unambiguous_gate",
    "C85_any_solver"
   ],
   "note": ""
  },
  {
   "property": "C86",
   "status": "proved",
   "theorems": [
    "C86_scores",
    "C86_association",
    "C86_fusion",
    "C86_cycle",
    "C86_repeated_uuid_refuted"
   ],
   "note": ""
  },
  {
   "property": "C87",
   "status": "proved",
   "theorems": [
    "C87_one_cycle",
    "C87_history",
    "C87_no_failure",
    "C87_followed"
   ],
   "note": ""
  },
  {
   "property": "C88",
   "status": "proved",
   "theorems": [
    "C88_large_removal_threshold",
    "C88_removal_threshold_one"
   ],
   "note": ""
  },
  {
   "property": "C89",
   "status": "proved",
   "theorems": [
    "C89_groups",
    "C89_order",
    "C89_alone",
    "C89_objects",
    "C89_order_refuted"
   ],
   "note": ""
  },
  {
   "property": "C90",
   "status": "proved",
   "theorems": [
    "C90_ctrv_moved",
    "C90_ctra_moved",
    "C90_ctrv_mirror",
    "C90_ctra_mirror",
    "C90_ctrv_scale",
    "C90_ctra_scale",
    "C90_no_noise",
    "C90_prediction_refuted"
   ],
   "note": ""
  },
  {
   "property": "C91",
   "status": "proved",
   "theorems": [
    "C91_weight",
    "C91_coordinates",
    "C91_ctrv",
    "C91_ctra",
    "C91_seam_refuted"
   ],
   "note": ""
  },
  {
   "property": "C92",
   "status": "proved",
   "theorems": [
    "C92_range",
    "C92_overflow",
    "C92_underflow",
    "C92_spreads",
    "C92_combined",
    "C92_accuracy"
   ],
   "note": ""
  },
  {
   "property": "C93",
   "status": "proved",
   "theorems": [
    "C93_one_bad_score",
    "C93_defined_iff",
    "C93_pose",
    "C93_frame"
   ],
   "note": ""
  },
  {
   "property": "C94",
   "status": "proved",
   "theorems": [
    "C94_range",
    "C94_accuracy",
    "C94_differences",
    "C94_neighbours_refuted",
    "C94_twice",
    "C94_not_finite"
   ],
   "note": ""
  },
  {
   "property": "C95",
   "status": "proved",
   "theorems": [
    "C95_forget",
    "C95_ctrv",
    "C95_ctra",
    "C95_never_learns",
    "C95_between",
    "C95_mean",
    "C95_average"
   ],
   "note": ""
  },
  {
   "property": "C96",
   "status": "proved",
   "theorems": [
    "C96_lost_ctrv",
    "C96_lost_ctra",
    "C96_bound",
    "C96_kept_ctrv",
    "C96_kept_ctra",
    "C96_kept_default"
   ],
   "note": ""
  },
  {
   "property": "C97",
   "status": "proved",
   "theorems": [
    "C97_exact",
    "C97_not_finite",
    "C97_threshold",
    "C97_margin_refuted"
   ],
   "note": ""
  },
  {
   "property": "C98",
   "status": "proved",
   "theorems": [
    "C98_ctrv",
    "C98_ctra",
    "C98_heading_ctrv",
    "C98_heading_ctra",
    "C98_step"
   ],
   "note": ""
  },
  {
   "property": "C99",
   "status": "proved",
   "theorems": [
    "C99_roundtrip",
    "C99_add",
    "C99_sub",
    "C99_predictions",
    "C99_satisfiable"
   ],
   "note": ""
  },
  {
   "property": "C100",
   "status": "proved",
   "theorems": [
    "C100_turn",
    "C100_straight",
    "C100_many_turn",
    "C100_many_straight"
   ],
   "note": ""
  },
  {
   "property": "C101",
   "status": "proved",
   "theorems": [
    "C101_turn",
    "C101_straight",
    "C101_not_finite",
    "C101_slow"
   ],
   "note": ""
  },
  {
   "property": "C102",
   "status": "proved",
   "theorems": [
    "C102_solver",
    "C102_contract",
    "C102_one_to_one",
    "C102_optimal",
    "C102_scene"
   ],
   "note": ""
  },
  {
   "property": "C103",
   "status": "proved",
   "theorems": [
    "C103_overflow",
    "C103_more_tracks_undefined",
    "C103_scene",
    "C103_optimal_with_more_tracks_refuted"
   ],
   "note": ""
  },
  {
   "property": "C104",
   "status": "proved",
   "theorems": [
    "C104_clear_scene",
    "C104_history",
    "C104_no_failure",
    "C104_fewer_tracks",
    "C104_more_tracks_undefined",
    "C104_hidden_object"
   ],
   "note": ""
  },
  {
   "property": "C105",
   "status": "proved",
   "theorems": [
    "C105_ctrv",
    "C105_ctra",
    "C105_ctrv_turn"
   ],
   "note": ""
  },
  {
   "property": "C106",
   "status": "proved",
   "theorems": [
    "C106_gate",
    "C106_cycle",
    "C106_life",
    "C106_one_track",
    "C106_no_failure",
    "C106_close_refuted"
   ],
   "note": ""
  },
  {
   "property": "C107",
   "status": "proved",
   "theorems": [
    "C107_mean",
    "C107_clusters",
    "C107_heading",
    "C107_heading_mean",
    "C107_removal_refuted"
   ],
   "note": ""
  },
  {
   "property": "C108",
   "status": "proved",
   "theorems": [
    "C108_turn",
    "C108_straight",
    "C108_difference"
   ],
   "note": ""
  },
  {
   "property": "C109",
   "status": "proved",
   "theorems": [
    "C109_kept_ctrv",
    "C109_kept_ctra",
    "C109_kept_default",
    "C109_parked_refuted"
   ],
   "note": ""
  },
  {
   "property": "C110",
   "status": "proved",
   "theorems": [
    "C110_default",
    "C110_mean",
    "C110_accuracy",
    "C110_collapse",
    "C110_sum_refuted"
   ],
   "note": ""
  },
  {
   "property": "C111",
   "status": "proved",
   "theorems": [
    "C111_accuracy",
    "C111_symmetry",
    "C111_diagonal",
    "C111_symmetry_refuted",
    "C111_variance_refuted"
   ],
   "note": ""
  },
  {
   "property": "C112",
   "status": "proved",
   "theorems": [
    "C112_definite",
    "C112_stops",
    "C112_pivots",
    "C112_upper",
    "C112_diagonal_ctrv",
    "C112_diagonal_ctra",
    "C112_semidefinite_refuted",
    "C112_tested"
   ],
   "note": ""
  },
  {
   "property": "C113",
   "status": "proved",
   "theorems": [
    "C113_accuracy",
    "C113_success",
    "C113_definite",
    "C113_thin_refuted"
   ],
   "note": ""
  },
  {
   "property": "C114",
   "status": "proved",
   "theorems": [
    "C114_covariance",
    "C114_accuracy",
    "C114_steady"
   ],
   "note": ""
  },
  {
   "property": "C115",
   "status": "proved",
   "theorems": [
    "C115_blind",
    "C115_variance"
   ],
   "note": ""
  },
  {
   "property": "C116",
   "status": "proved",
   "theorems": [
    "C116_residual",
    "C116_accuracy",
    "C116_singular",
    "C116_symmetry_refuted"
   ],
   "note": ""
  },
  {
   "property": "C117",
   "status": "proved",
   "theorems": [
    "C117_ctrv_accuracy",
    "C117_ctra_accuracy",
    "C117_ctrv_same_pose",
    "C117_ctra_same_pose",
    "C117_nan_refuted"
   ],
   "note": ""
  },
  {
   "property": "C118",
   "status": "proved",
   "theorems": [
    "C118_ctrv",
    "C118_ctra",
    "C118_ctrv_between",
    "C118_ctra_between",
    "C118_exact"
   ],
   "note": ""
  },
  {
   "property": "C119",
   "status": "proved",
   "theorems": [
    "C119_determinant",
    "C119_weight",
    "C119_covariance",
    "C119_finite",
    "C119_mean",
    "C119_visitor",
    "C119_weight_refuted"
   ],
   "note": ""
  },
  {
   "property": "C120",
   "status": "proved",
   "theorems": [
    "C120_covariance",
    "C120_accuracy",
    "C120_steady"
   ],
   "note": ""
  },
  {
   "property": "C121",
   "status": "proved",
   "theorems": [
    "C121_table",
    "C121_order",
    "C121_manager",
    "C121_independent",
    "C121_clusters"
   ],
   "note": ""
  },
  {
   "property": "C122",
   "status": "proved",
   "theorems": [
    "C122_cycle",
    "C122_life",
    "C122_usable",
    "C122_updated"
   ],
   "note": ""
  },
  {
   "property": "C123",
   "status": "proved",
   "theorems": [
    "C123_cycle",
    "C123_orders",
    "C123_vehicles",
    "C123_independent"
   ],
   "note": ""
  }
 ]
}