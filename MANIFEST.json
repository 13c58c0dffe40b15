{
 "claims": [
  {
   "property": "C01",
   "status": "proved",
   "theorems": [
    "C01_plu_rank",
    "C01_pivot_columns_basis"
   ],
   "note": ""
  },
  {
   "property": "C02",
   "status": "proved",
   "theorems": [
    "C02_luSolve_consistent",
    "C02_luSolve_rejects",
    "C02_luSolve_inconsistent_refuted"
   ],
   "note": "Full statement for consistent systems; C02_luSolve_inconsistent_refuted records that inconsistent systems are answered silently."
  },
  {
   "property": "C03",
   "status": "proved",
   "theorems": [
    "C03_rowspace_exact",
    "C03_rowspace_dimension",
    "C03_rowspace_zero_any_length"
   ],
   "note": "Exact on matching lengths; the zero vector is accepted whatever its length (C03_rowspace_zero_any_length)."
  },
  {
   "property": "C04",
   "status": "proved",
   "theorems": [
    "C04_transpose",
    "C04_transpose_rejects_empty",
    "C04_multiply",
    "C04_residual",
    "C04_residual_short_error_throws"
   ],
   "note": ""
  },
  {
   "property": "C05",
   "status": "proved",
   "theorems": [
    "C05_isXStabilizer_exact",
    "C05_isStabilizer_two_sided",
    "C05_syndrome_linear",
    "C05_syndrome_is_Hz_product",
    "C05_syndrome_two_sided",
    "C05_stabilizers_have_zero_syndrome",
    "C05_verdict_degenerate"
   ],
   "note": ""
  },
  {
   "property": "C06",
   "status": "proved",
   "theorems": [
    "C06_valid_strings",
    "C06_binary_meaning",
    "C06_string_roundtrip",
    "C06_binary_roundtrip",
    "C06_zero_qubits_refuted"
   ],
   "note": ""
  },
  {
   "property": "C07",
   "status": "proved",
   "theorems": [
    "C07_commute",
    "C07_all_commute",
    "C07_syndrome",
    "C07_syndrome_linear"
   ],
   "note": ""
  },
  {
   "property": "C08",
   "status": "proved",
   "theorems": [
    "C08_exact_answer",
    "C08_up_to_phase",
    "C08_exact_css",
    "C08_length_mismatch",
    "C08_equivalence_refuted",
    "C08_sign_refuted"
   ],
   "note": "C08_exact_answer is exact; C08_equivalence_refuted and C08_sign_refuted show where the answer is not the expected one."
  },
  {
   "property": "C09",
   "status": "proved",
   "theorems": [
    "C09_eq_iff_same_span",
    "C09_equivalence_relation",
    "C09_css_same_signed_group",
    "C09_different_sizes",
    "C09_signed_group_refuted"
   ],
   "note": "C09_signed_group_refuted: equality is not equality of signed groups in general."
  },
  {
   "property": "C10",
   "status": "proved",
   "theorems": [
    "C10_constructor_accepts",
    "C10_fields",
    "C10_noncommuting_refuted",
    "C10_logicals_refuted",
    "C10_rejections_refuted"
   ],
   "note": "C10_noncommuting_refuted, C10_logicals_refuted, C10_rejections_refuted: accepted or rejected unexpectedly."
  },
  {
   "property": "C11",
   "status": "proved",
   "theorems": [
    "C11_accepts_iff",
    "C11_code_parameters",
    "C11_printed_checks"
   ],
   "note": ""
  },
  {
   "property": "C12",
   "status": "proved",
   "theorems": [
    "C12_logicals_complete"
   ],
   "note": ""
  },
  {
   "property": "C13",
   "status": "proved",
   "theorems": [
    "C13_logical_x_error",
    "C13_logical_z_error",
    "C13_representatives_irrelevant"
   ],
   "note": ""
  },
  {
   "property": "C14",
   "status": "proved",
   "theorems": [
    "C14_membership",
    "C14_coset_equality"
   ],
   "note": ""
  },
  {
   "property": "C15",
   "status": "proved",
   "theorems": [
    "C15_self_dual_means",
    "C15_self_dual_exact_when_independent",
    "C15_self_dual_refuted"
   ],
   "note": "C15_self_dual_refuted: wrong in both directions with redundant rows."
  },
  {
   "property": "C16",
   "status": "proved",
   "theorems": [
    "C16_named_codes",
    "C16_unknown_rejected",
    "C16_documented_parameters"
   ],
   "note": ""
  },
  {
   "property": "C17",
   "status": "proved",
   "theorems": [
    "C17_code",
    "C17_adjacency",
    "C17_enumeration_independent",
    "C17_distance_upper_bound",
    "C17_distance",
    "C17_even_distance_commutes",
    "C17_even_distance_no_logical",
    "C17_lightsout_decodes",
    "C17_check_if_logical_error_refuted"
   ],
   "note": "All clauses for every odd d>=3 and every enumeration; the lower bound on the weight of a logical operator by peeling the lattice row by row. C17_check_if_logical_error_refuted records a defect of the code."
  },
  {
   "property": "C18",
   "status": "proved",
   "theorems": [
    "C18_code",
    "C18_adjacency",
    "C18_enumeration_independent",
    "C18_distance_upper_bound",
    "C18_distance",
    "C18_lightsout_decodes",
    "C18_even_distance_raises"
   ],
   "note": "All clauses for every odd d>=3 and every enumeration, the least weight by the same row-by-row argument."
  },
  {
   "property": "C19",
   "status": "proved",
   "theorems": [
    "C19_check_matrices",
    "C19_check_weights",
    "C19_supported_codes",
    "C19_other_lengths_rejected"
   ],
   "note": ""
  },
  {
   "property": "C20",
   "status": "proved",
   "theorems": [
    "C20_3d_chain_complex",
    "C20_3d_accepts_iff",
    "C20_4d_chain_complex",
    "C20_metacheck_annihilates",
    "C20_create_code_4d",
    "C20_create_code_3d"
   ],
   "note": ""
  },
  {
   "property": "C21",
   "status": "proved",
   "theorems": [
    "C21_preconstruct",
    "C21_system",
    "C21_short_light_refuted"
   ],
   "note": ""
  },
  {
   "property": "C22",
   "status": "proved",
   "theorems": [
    "C22_solve",
    "C22_corrects_every_error",
    "C22_failure_is_sticky_refuted",
    "C22_solver_exists"
   ],
   "note": "C22_failure_is_sticky_refuted: after one unsolvable call every call fails."
  },
  {
   "property": "C23",
   "status": "proved",
   "theorems": [
    "C23_validate_model",
    "C23_toggles",
    "C23_count_switches"
   ],
   "note": ""
  },
  {
   "property": "C24",
   "status": "proved",
   "theorems": [
    "C24_table",
    "C24_first_minimum"
   ],
   "note": ""
  },
  {
   "property": "C25",
   "status": "proved",
   "theorems": [
    "C25_decode_x_any_history",
    "C25_decode_z_history",
    "C25_self_dual_z_first_refuted",
    "C25_self_dual_permuted_refuted",
    "C25_wide_syndrome_refuted",
    "C25_batch_decode_x"
   ],
   "note": "Refuted for self-dual codes and wide syndromes, see the _refuted theorems."
  },
  {
   "property": "C26",
   "status": "proved",
   "theorems": [
    "C26_forest",
    "C26_union_by_size"
   ],
   "note": ""
  },
  {
   "property": "C27",
   "status": "proved",
   "theorems": [
    "C27_components_connected",
    "C27_components_cover_refuted",
    "C27_components_disjoint_refuted"
   ],
   "note": "The claimed partition is refuted; what holds is C27_components_connected."
  },
  {
   "property": "C28",
   "status": "proved",
   "theorems": [
    "C28_component_estimate",
    "C28_decode_no_exception",
    "C28_zero_syndrome",
    "C28_decode_single_component",
    "C28_decode_syndrome_refuted",
    "C28_estimate_local_refuted"
   ],
   "note": "Refuted in general (C28_decode_syndrome_refuted), true for components with an interior qubit."
  },
  {
   "property": "C29",
   "status": "proved",
   "theorems": [
    "C29_growth_monotone",
    "C29_all_components_progress",
    "C29_all_components_terminates",
    "C29_all_components_disconnected_refuted",
    "C29_invalid_components_refuted",
    "C29_single_smallest_refuted",
    "C29_single_qubit_random_refuted"
   ],
   "note": "Termination refuted for disconnected graphs and three growth policies."
  },
  {
   "property": "C30",
   "status": "proved",
   "theorems": [
    "C30_one_sided",
    "C30_two_sided_same_matrix",
    "C30_result_order_refuted",
    "C30_setCode_swap_refuted",
    "C30_row_counts_refuted",
    "C30_heuristic_two_sided"
   ],
   "note": "Two-sided decoding is refuted for different matrices and for the order of the result."
  },
  {
   "property": "C31",
   "status": "proved",
   "theorems": [
    "C31_bit_neighbours",
    "C31_check_neighbours",
    "C31_unknown_node_rejected",
    "C31_symmetric",
    "C31_cache_transparent"
   ],
   "note": ""
  },
  {
   "property": "C32",
   "status": "proved",
   "theorems": [
    "C32_decode_returns",
    "C32_syndrome_iff",
    "C32_decode_syndrome_refuted",
    "C32_flagged_untouched_refuted",
    "C32_order_dependent_refuted",
    "C32_reuse_refuted",
    "C32_empty_check_refuted"
   ],
   "note": "The syndrome is not always reproduced: see the _refuted theorems."
  },
  {
   "property": "C33",
   "status": "proved",
   "theorems": [
    "C33_zero_state",
    "C33_plus_state",
    "C33_stabilized"
   ],
   "note": ""
  },
  {
   "property": "C34",
   "status": "proved",
   "theorems": [
    "C34_terminates",
    "C34_costs_and_turns",
    "C34_layers"
   ],
   "note": ""
  },
  {
   "property": "C35",
   "status": "partial",
   "theorems": [
    "C35_fault_meaning",
    "C35_single_faults_partial",
    "C35_remaining_faults",
    "C35_refuted"
   ],
   "note": "C35_single_faults_partial is the part of the claim that holds; C35_refuted shows that faults are missed for Shor's code, so the full claim is false of the code; C35_remaining_faults characterises the faults not covered."
  },
  {
   "property": "C36",
   "status": "proved",
   "theorems": [
    "C36_multi_faults",
    "C36_combine_faults",
    "C36_edge_cases"
   ],
   "note": ""
  },
  {
   "property": "C37",
   "status": "proved",
   "theorems": [
    "C37_coset_leader"
   ],
   "note": ""
  },
  {
   "property": "C38",
   "status": "proved",
   "theorems": [
    "C38_useful",
    "C38_returned",
    "C38_none",
    "C38_enough_ancillas",
    "C38_incomplete_refuted",
    "C38_heuristic",
    "C38_gate_optimal"
   ],
   "note": ""
  },
  {
   "property": "C39",
   "status": "proved",
   "theorems": [
    "C39_cover",
    "C39_terminates_iff"
   ],
   "note": ""
  },
  {
   "property": "C40",
   "status": "proved",
   "theorems": [
    "C40_search",
    "C40_result",
    "C40_least",
    "C40_stuck",
    "C40_stuck_timeout"
   ],
   "note": ""
  },
  {
   "property": "C41",
   "status": "proved",
   "theorems": [
    "C41_gates_exact",
    "C41_depth_exact",
    "C41_redundant_refuted",
    "C41_gate_optimal",
    "C41_depth_optimal",
    "C41_errors"
   ],
   "note": "Redundant checks: C41_redundant_refuted."
  },
  {
   "property": "C42",
   "status": "proved",
   "theorems": [
    "C42_measures",
    "C42_unflagged",
    "C42_outcome",
    "C42_weight_one_refuted"
   ],
   "note": ""
  },
  {
   "property": "C43",
   "status": "proved",
   "theorems": [
    "C43_one_fault"
   ],
   "note": ""
  },
  {
   "property": "C44",
   "status": "proved",
   "theorems": [
    "C44_two_faults",
    "C44_weights_refuted",
    "C44_pattern_even",
    "C44_pattern_odd_refuted"
   ],
   "note": ""
  },
  {
   "property": "C45",
   "status": "proved",
   "theorems": [
    "C45_hooks",
    "C45_suffix_refuted"
   ],
   "note": ""
  },
  {
   "property": "C46",
   "status": "proved",
   "theorems": [
    "C46_records",
    "C46_stim_circuit",
    "C46_noise",
    "C46_dropped_hadamard_refuted",
    "C46_data_qubits",
    "C46_third_measurement_refuted",
    "C46_syndrome",
    "C46_batch",
    "C46_rates_fixed",
    "C46_shots_refuted",
    "C46_rates_until",
    "C46_until_diverges",
    "C46_pooled_refuted"
   ],
   "note": ""
  },
  {
   "property": "C47",
   "status": "proved",
   "theorems": [
    "C47_in_register",
    "C47_blocks_disjoint",
    "C47_measure_swapped_refuted",
    "C47_measure_swapped",
    "C47_bits",
    "C47_surface_bits_refuted"
   ],
   "note": ""
  },
  {
   "property": "C48",
   "status": "proved",
   "theorems": [
    "C48_q3shor",
    "C48_q9shor",
    "C48_q5laflamme",
    "C48_q7steane",
    "C48_q9surface",
    "C48_q3shor_phase_refuted",
    "C48_q18surface_refuted"
   ],
   "note": ""
  },
  {
   "property": "C49",
   "status": "proved",
   "theorems": [
    "C49_q3shor",
    "C49_q9shor",
    "C49_first_encoding",
    "C49_first_encoding_refuted",
    "C49_round_encodes",
    "C49_decoding_reads",
    "C49_reencode_refuted"
   ],
   "note": ""
  },
  {
   "property": "C50",
   "status": "proved",
   "theorems": [
    "C50_schedule",
    "C50_count",
    "C50_frequency_zero",
    "C50_alternates",
    "C50_gates_kept",
    "C50_identity"
   ],
   "note": ""
  },
  {
   "property": "C51",
   "status": "proved",
   "theorems": [
    "C51_multiround_product",
    "C51_explains_iff_record",
    "C51_always_solvable"
   ],
   "note": ""
  },
  {
   "property": "C52",
   "status": "proved",
   "theorems": [
    "C52_window_commit",
    "C52_window_carry",
    "C52_last_window",
    "C52_carry_refuted",
    "C52_sample_windows",
    "C52_sample_residual",
    "C52_good_last_decoder_exists",
    "C52_last_round_not_decoded",
    "C52_short_run_undecoded",
    "C52_hard_syndromes_crash"
   ],
   "note": "C52_window_carry is exact; C52_carry_refuted and the following theorems show the departures."
  },
  {
   "property": "C53",
   "status": "proved",
   "theorems": [
    "C53_analog_accepts",
    "C53_analog_shape",
    "C53_single_stage",
    "C53_threshold",
    "C53_sample",
    "C53_success_outside_code_space",
    "C53_decoder_arguments",
    "C53_no_noise_rejected"
   ],
   "note": ""
  },
  {
   "property": "C54",
   "status": "proved",
   "theorems": [
    "C54_generate_err",
    "C54_zero_probability",
    "C54_generate_syndr_err",
    "C54_error_channel",
    "C54_error_channel_infinite",
    "C54_is_logical_err",
    "C54_check_logical_err_h"
   ],
   "note": ""
  },
  {
   "property": "C55",
   "status": "proved",
   "theorems": [
    "C55_run_counts",
    "C55_run_no_sample",
    "C55_save_interval_one",
    "C55_word_error_rate",
    "C55_is_converged",
    "C55_no_failure_never_converges",
    "C55_word_error_bar"
   ],
   "note": "C55_word_error_bar: the error bar is the propagated one iff k = 1."
  },
  {
   "property": "C56",
   "status": "proved",
   "theorems": [
    "C56_merge_totals",
    "C56_merge_order",
    "C56_merge_missing_first",
    "C56_combine_xz",
    "C56_combine_refuted"
   ],
   "note": "C56_combine_refuted: totals are lost when results hold both sides."
  },
  {
   "property": "C57",
   "status": "proved",
   "theorems": [
    "C57_good",
    "C57_paulis",
    "C57_steane",
    "C57_controlled",
    "C57_q3_phases",
    "C57_q3_phases_refuted",
    "C57_controlled_y_refuted",
    "C57_leaves_code_refuted",
    "C57_unavailable_refuted",
    "C57_q18_refuted"
   ],
   "note": ""
  },
  {
   "property": "C58",
   "status": "proved",
   "theorems": [
    "C58_q3shor",
    "C58_q3shor_X",
    "C58_q9shor",
    "C58_q9shor_gates",
    "C58_q3shor_input_refuted"
   ],
   "note": ""
  },
  {
   "property": "C59",
   "status": "proved",
   "theorems": [
    "C59_flags",
    "C59_round",
    "C59_history",
    "C59_two_stage_meta",
    "C59_two_stage_plain",
    "C59_single_stage_meta",
    "C59_single_stage_info",
    "C59_run_refuted",
    "C59_run_exception",
    "C59_single_stage_hard_refuted",
    "C59_noiseless_analog_refuted",
    "C59_two_stage_analog_refuted",
    "C59_two_stage_channels_refuted",
    "C59_flags_without_logicals"
   ],
   "note": ""
  },
  {
   "property": "C60",
   "status": "proved",
   "theorems": [
    "C60_llr",
    "C60_monotone",
    "C60_no_noise"
   ],
   "note": ""
  },
  {
   "property": "C61",
   "status": "proved",
   "theorems": [
    "C61_word_error_rates",
    "C61_rate_value",
    "C61_success_syndrome",
    "C61_decoders_complete",
    "C61_default_k_refuted",
    "C61_one_sided_raises",
    "C61_labels_refuted"
   ],
   "note": ""
  },
  {
   "property": "C62",
   "status": "proved",
   "theorems": [
    "C62_runtime_table",
    "C62_single_run",
    "C62_average_refuted",
    "C62_failure_truncates",
    "C62_no_samples_refuted",
    "C62_decoders_complete"
   ],
   "note": ""
  },
  {
   "property": "C63",
   "status": "proved",
   "theorems": [
    "C63_hexagonal",
    "C63_square_octagon",
    "C63_external_solver_refuted",
    "C63_no_samples",
    "C63_even_distance_refuted",
    "C63_code_from_string"
   ],
   "note": ""
  },
  {
   "property": "C64",
   "status": "proved",
   "theorems": [
    "C64_key",
    "C64_reordered",
    "C64_set_refuted",
    "C64_dtype_refuted",
    "C64_lookup_sound",
    "C64_lookup_same_generators",
    "C64_color",
    "C64_mixed",
    "C64_transitive_refuted"
   ],
   "note": ""
  },
  {
   "property": "C65",
   "status": "proved",
   "theorems": [
    "C65_create_code",
    "C65_rejections",
    "C65_create_code_3d_refuted",
    "C65_hypergraph_product",
    "C65_store_code_params",
    "C65_number_of_logicals",
    "C65_number_of_logicals_3d",
    "C65_toric"
   ],
   "note": ""
  },
  {
   "property": "C66",
   "status": "proved",
   "theorems": [
    "C66_gate_optimal_terminates",
    "C66_terminates",
    "C66_total",
    "C66_syndrome",
    "C66_no_error",
    "C66_heuristic",
    "C66_gate_optimal",
    "C66_naive"
   ],
   "note": ""
  },
  {
   "property": "C67",
   "status": "proved",
   "theorems": [
    "C67_merge",
    "C67_merge_conserves",
    "C67_merge_relative",
    "C67_merge_dot",
    "C67_load_rebuild",
    "C67_load_relative"
   ],
   "note": ""
  },
  {
   "property": "C68",
   "status": "proved",
   "theorems": [
    "C68_fresh",
    "C68_sequence",
    "C68_preserve",
    "C68_exclusive",
    "C68_race",
    "C68_crash",
    "C68_same_folder",
    "C68_xz_sigma",
    "C68_in_folder"
   ],
   "note": ""
  },
  {
   "property": "C69",
   "status": "proved",
   "theorems": [
    "C69_product",
    "C69_zip",
    "C69_extract",
    "C69_from_dict"
   ],
   "note": ""
  },
  {
   "property": "C70",
   "status": "proved",
   "theorems": [
    "C70_one_fault",
    "C70_one_fault_optimal"
   ],
   "note": ""
  },
  {
   "property": "C71",
   "status": "proved",
   "theorems": [
    "C71_read",
    "C71_exact",
    "C71_blank",
    "C71_padded_iff",
    "C71_no_zero_row",
    "C71_out_of_range"
   ],
   "note": ""
  },
  {
   "property": "C72",
   "status": "proved",
   "theorems": [
    "C72_atd",
    "C72_analog_window",
    "C72_hard_matching",
    "C72_hard_bposd",
    "C72_hard_history_refuted",
    "C72_sample",
    "C72_sizes"
   ],
   "note": ""
  },
  {
   "property": "C73",
   "status": "proved",
   "theorems": [
    "C73_create",
    "C73_gates",
    "C73_noise_free",
    "C73_depolarizing",
    "C73_channel",
    "C73_pauli",
    "C73_order",
    "C73_order_refuted",
    "C73_physical",
    "C73_results",
    "C73_results_default",
    "C73_export",
    "C73_main"
   ],
   "note": ""
  },
  {
   "property": "C74",
   "status": "proved",
   "theorems": [
    "C74_max_errors",
    "C74_tolerable",
    "C74_switch",
    "C74_fault_sets_after"
   ],
   "note": ""
  },
  {
   "property": "C75",
   "status": "proved",
   "theorems": [
    "C75_quality",
    "C75_light",
    "C75_found",
    "C75_exact_refuted"
   ],
   "note": ""
  },
  {
   "property": "C76",
   "status": "proved",
   "theorems": [
    "C76_css",
    "C76_blocks",
    "C76_weight",
    "C76_biased",
    "C76_lift_one"
   ],
   "note": ""
  },
  {
   "property": "C77",
   "status": "proved",
   "theorems": [
    "C77_curves",
    "C77_times",
    "C77_threshold",
    "C77_order",
    "C77_times_by_distance",
    "C77_ler_by_distance",
    "C77_drawn",
    "C77_fails",
    "C77_tn",
    "C77_tn_order"
   ],
   "note": ""
  },
  {
   "property": "C78",
   "status": "proved",
   "theorems": [
    "C78_reads",
    "C78_roundtrip",
    "C78_stops",
    "C78_overflow",
    "C78_every_line",
    "C78_commas",
    "C78_glued",
    "C78_code",
    "C78_code2",
    "C78_no_file",
    "C78_blank_line",
    "C78_print",
    "C78_print_read",
    "C78_json_result",
    "C78_json_result_nodes",
    "C78_json_run",
    "C78_json_code",
    "C78_json_names",
    "C78_json_default",
    "C78_names",
    "C78_names_apart",
    "C78_python_names"
   ],
   "note": ""
  },
  {
   "property": "C79",
   "status": "proved",
   "theorems": [
    "C79_saved",
    "C79_code",
    "C79_distances_3d",
    "C79_distances_4d",
    "C79_distances_4d_script",
    "C79_distances_3d_script",
    "C79_last_line"
   ],
   "note": ""
  },
  {
   "property": "C80",
   "status": "proved",
   "theorems": [
    "C80_comparison",
    "C80_comparison_drawn",
    "C80_refuted_colours",
    "C80_names",
    "C80_run",
    "C80_sequence",
    "C80_listing",
    "C80_figures",
    "C80_rates",
    "C80_refuted_distinct",
    "C80_cli",
    "C80_tn_names"
   ],
   "note": ""
  },
  {
   "property": "C81",
   "status": "proved",
   "theorems": [
    "C81_options",
    "C81_code",
    "C81_refused",
    "C81_directory",
    "C81_file_names",
    "C81_run",
    "C81_failures",
    "C81_distance_ignored",
    "C81_no_ver_built",
    "C81_no_ver_shipped",
    "C81_no_ver_refuted",
    "C81_shipped",
    "C81_documented",
    "C81_surface_distance"
   ],
   "note": ""
  }
 ]
}