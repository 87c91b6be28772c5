{
 "claims": [
  {
   "property": "C01",
   "status": "proved",
   "theorems": [
    "C01_inner_product_sum",
    "C01_inner_product_comm",
    "C01_inner_product_linear"
   ],
   "note": ""
  },
  {
   "property": "C02",
   "status": "proved",
   "theorems": [
    "C02_vandemonde_challenge",
    "C02_vandemonde_challenge_panic"
   ],
   "note": ""
  },
  {
   "property": "C03",
   "status": "proved",
   "theorems": [
    "C03_vandemonde_vector",
    "C03_vandemonde_vector_panic",
    "C03_vandemonde_vector_general",
    "C03_vandemonde_vector_general_panic",
    "C03_vandemonde_matrix",
    "C03_vandemonde_matrix_panic",
    "C03_rand_matrix"
   ],
   "note": ""
  },
  {
   "property": "C04",
   "status": "proved",
   "theorems": [
    "C04_matrix_vector_mul",
    "C04_matrixpoint_vector_mul",
    "C04_matrix_vector_mul_general",
    "C04_linear"
   ],
   "note": ""
  },
  {
   "property": "C05",
   "status": "proved",
   "theorems": [
    "C05_row_row_add",
    "C05_row_row_sub",
    "C05_rowpoint_rowpoint_add",
    "C05_row_row_add_general",
    "C05_matrix_matrix_add",
    "C05_matrixpoint_matrix_add",
    "C05_matrix_matrix_add_general",
    "C05_matrix_scalar_mul",
    "C05_matrixpoint_scalar_mul",
    "C05_matrix_scalar_mul_general",
    "C05_vector_scalar_mul"
   ],
   "note": ""
  },
  {
   "property": "C06",
   "status": "proved",
   "theorems": [
    "C06_transpose",
    "C06_transpose_point",
    "C06_transpose_involution",
    "C06_transpose_point_involution",
    "C06_transpose_panic",
    "C06_transpose_point_panic"
   ],
   "note": ""
  },
  {
   "property": "C07",
   "status": "proved",
   "theorems": [
    "C07_transpose_adjoint"
   ],
   "note": ""
  },
  {
   "property": "C08",
   "status": "proved",
   "theorems": [
    "C08_block_matrix_batch",
    "C08_block_matrix_batch_panic",
    "C08_block_matrix_build"
   ],
   "note": ""
  },
  {
   "property": "C09",
   "status": "proved",
   "theorems": [
    "C09_matrix_split",
    "C09_matrix_split_panic"
   ],
   "note": ""
  },
  {
   "property": "C10",
   "status": "proved",
   "theorems": [
    "C10_orth",
    "C10_orth_panic",
    "C10_orth_isotropic",
    "C10_orth_ristretto_refuted"
   ],
   "note": ""
  },
  {
   "property": "C11",
   "status": "proved",
   "theorems": [
    "C11_sample_gram_schmidt",
    "C11_sample_gram_schmidt_twice"
   ],
   "note": ""
  },
  {
   "property": "C12",
   "status": "proved",
   "theorems": [
    "C12_mask_support",
    "C12_mask_panic"
   ],
   "note": ""
  },
  {
   "property": "C13",
   "status": "proved",
   "theorems": [
    "C13_nozk_completeness",
    "C13_alpha_zero_rejects"
   ],
   "note": ""
  },
  {
   "property": "C14",
   "status": "proved",
   "theorems": [
    "C14_nozk_create_returns",
    "C14_nozk_create_no_divergence",
    "C14_nozk_proof_size"
   ],
   "note": ""
  },
  {
   "property": "C15",
   "status": "proved",
   "theorems": [
    "C15_nozk_verification_equation"
   ],
   "note": ""
  },
  {
   "property": "C16",
   "status": "proved",
   "theorems": [
    "C16_nozk_special_soundness",
    "C16_nozk_soundness_independent"
   ],
   "note": ""
  },
  {
   "property": "C17",
   "status": "proved",
   "theorems": [
    "C17_bad_encoding_panics",
    "C17_wrong_length_panics",
    "C17_surplus_right_points_ignored",
    "C17_verify_terminates"
   ],
   "note": ""
  },
  {
   "property": "C18",
   "status": "proved",
   "theorems": [
    "C18_almzk_completeness"
   ],
   "note": ""
  },
  {
   "property": "C19",
   "status": "proved",
   "theorems": [
    "C19_zero_vector_panics",
    "C19_verdict"
   ],
   "note": ""
  },
  {
   "property": "C20",
   "status": "proved",
   "theorems": [
    "C20_almzk_special_soundness"
   ],
   "note": ""
  },
  {
   "property": "C21",
   "status": "proved",
   "theorems": [
    "C21_statement_not_bound",
    "C21_t_not_bound"
   ],
   "note": ""
  },
  {
   "property": "C22",
   "status": "proved",
   "theorems": [
    "C22_qesa_inner_completeness"
   ],
   "note": ""
  },
  {
   "property": "C23",
   "status": "proved",
   "theorems": [
    "C23_qesa_zk_completeness"
   ],
   "note": ""
  },
  {
   "property": "C24",
   "status": "proved",
   "theorems": [
    "C24_qesa_batched_soundness",
    "C24_qesa_soundness",
    "C24_qesa_soundness_independent"
   ],
   "note": ""
  },
  {
   "property": "C25",
   "status": "proved",
   "theorems": [
    "C25_qesa_unsatisfiable_accepted"
   ],
   "note": ""
  },
  {
   "property": "C26",
   "status": "proved",
   "theorems": [
    "C26_qesa_verify_ignores_equations",
    "C26_qesa_create_ignores_equations",
    "C26_qesa_unsatisfiable_tail"
   ],
   "note": ""
  },
  {
   "property": "C27",
   "status": "proved",
   "theorems": [
    "C27_qesa_equations_not_bound"
   ],
   "note": ""
  },
  {
   "property": "C28",
   "status": "proved",
   "theorems": [
    "C28_positions"
   ],
   "note": ""
  },
  {
   "property": "C29",
   "status": "proved",
   "theorems": [
    "C29_metadata"
   ],
   "note": ""
  },
  {
   "property": "C30",
   "status": "proved",
   "theorems": [
    "C30_succeeds_iff_room"
   ],
   "note": ""
  },
  {
   "property": "C31",
   "status": "proved",
   "theorems": [
    "C31_index_zero_accepted",
    "C31_honest_proof_rejected"
   ],
   "note": ""
  },
  {
   "property": "C32",
   "status": "proved",
   "theorems": [
    "C32_sizes_truncated",
    "C32_multiple_of_65536_panics",
    "C32_large_power_of_two_panics",
    "C32_positions_inside_witness"
   ],
   "note": ""
  },
  {
   "property": "C33",
   "status": "proved",
   "theorems": [
    "C33_commit_value",
    "C33_commit_homomorphic"
   ],
   "note": ""
  },
  {
   "property": "C34",
   "status": "proved",
   "theorems": [
    "C34_copy_completeness"
   ],
   "note": ""
  },
  {
   "property": "C35",
   "status": "proved",
   "theorems": [
    "C35_copy_equations"
   ],
   "note": ""
  },
  {
   "property": "C36",
   "status": "proved",
   "theorems": [
    "C36_lmpa_completeness"
   ],
   "note": ""
  },
  {
   "property": "C37",
   "status": "proved",
   "theorems": [
    "C37_lmpa_soundness_row0",
    "C37_lmpa_soundness_single_row"
   ],
   "note": ""
  },
  {
   "property": "C38",
   "status": "proved",
   "theorems": [
    "C38_lmpa_only_first_row",
    "C38_simple_zk_only_first_row",
    "C38_lmpa_false_statement_accepted",
    "C38_lmpa_sound_for_all_rows_refuted"
   ],
   "note": ""
  },
  {
   "property": "C39",
   "status": "proved",
   "theorems": [
    "C39_lmpa_create_returns",
    "C39_lmpa_create_terminates",
    "C39_lmpa_verify_terminates"
   ],
   "note": ""
  },
  {
   "property": "C40",
   "status": "proved",
   "theorems": [
    "C40_simple_zk_completeness"
   ],
   "note": ""
  },
  {
   "property": "C41",
   "status": "proved",
   "theorems": [
    "C41_simple_zk_witness_indistinguishable",
    "C41_simple_zk_simulation",
    "C41_simple_zk_simulator_accepted",
    "C41_simple_zk_same_distribution",
    "C41_simple_zk_simulated_distribution"
   ],
   "note": ""
  },
  {
   "property": "C42",
   "status": "proved",
   "theorems": [
    "C42_simple_zk_soundness_row0"
   ],
   "note": ""
  },
  {
   "property": "C43",
   "status": "proved",
   "theorems": [
    "C43_kary_completeness"
   ],
   "note": ""
  },
  {
   "property": "C44",
   "status": "proved",
   "theorems": [
    "C44_kary_universal_forgery",
    "C44_kary_target_ignored",
    "C44_kary_matrix_ignored"
   ],
   "note": ""
  },
  {
   "property": "C45",
   "status": "proved",
   "theorems": [
    "C45_kary_k0_panics",
    "C45_kary_k1_diverges",
    "C45_kary_create_returns",
    "C45_kary_create_terminates",
    "C45_kary_verify_terminates"
   ],
   "note": ""
  },
  {
   "property": "C46",
   "status": "proved",
   "theorems": [
    "C46_general_completeness",
    "C46_general_no_round_verdict",
    "C46_general_complete_refuted"
   ],
   "note": ""
  },
  {
   "property": "C47",
   "status": "proved",
   "theorems": [
    "C47_general_response_unblinded",
    "C47_general_reveals_witness",
    "C47_general_distinguishable"
   ],
   "note": ""
  },
  {
   "property": "C48",
   "status": "proved",
   "theorems": [
    "C48_pedersen_value",
    "C48_pedersen_homomorphic"
   ],
   "note": ""
  },
  {
   "property": "C49",
   "status": "proved",
   "theorems": [
    "C49_challenge_is_reduction",
    "C49_preimage_count",
    "C49_bias",
    "C49_oracle",
    "C49_every_oracle"
   ],
   "note": ""
  },
  {
   "property": "C50",
   "status": "proved",
   "theorems": [
    "C50_ipa_layout",
    "C50_almzk_layout",
    "C50_qesa_layout",
    "C50_copy_layout",
    "C50_lmpa_layout",
    "C50_simplezk_layout",
    "C50_kary_layout",
    "C50_general_layout"
   ],
   "note": ""
  },
  {
   "property": "C51",
   "status": "proved",
   "theorems": [
    "C51_simple_zk_statement_not_bound",
    "C51_simple_zk_zero_map_forged",
    "C51_lmpa_statement_not_bound"
   ],
   "note": ""
  },
  {
   "property": "C52",
   "status": "proved",
   "theorems": [
    "C52_qesa_commitment_not_bound",
    "C52_qesa_two_equations"
   ],
   "note": ""
  },
  {
   "property": "C53",
   "status": "proved",
   "theorems": [
    "C53_copy_commitments_not_bound",
    "C53_copy_any_messages"
   ],
   "note": ""
  },
  {
   "property": "C54",
   "status": "proved",
   "theorems": [
    "C54_copy_equations_dropped"
   ],
   "note": ""
  },
  {
   "property": "C55",
   "status": "proved",
   "theorems": [
    "C55_commitments_not_absorbed",
    "C55_shifted_commitments"
   ],
   "note": ""
  },
  {
   "property": "C56",
   "status": "proved",
   "theorems": [
    "C56_copy_enforces_equality"
   ],
   "note": ""
  },
  {
   "property": "C57",
   "status": "proved",
   "theorems": [
    "C57_ipa_verifier_terminates",
    "C57_almzk_verifier_terminates",
    "C57_qesa_verifier_terminates",
    "C57_zk_verifier_terminates",
    "C57_copy_verifier_terminates",
    "C57_lmpa_verifier_terminates",
    "C57_simplezk_verifier_terminates",
    "C57_kary_verifier_terminates",
    "C57_general_verifier_terminates",
    "C57_ipa_prover_terminates",
    "C57_almzk_prover_terminates",
    "C57_qesa_prover_terminates",
    "C57_zk_prover_terminates",
    "C57_copy_prover_terminates"
   ],
   "note": ""
  },
  {
   "property": "C58",
   "status": "proved",
   "theorems": [
    "C58_ipa_verdict",
    "C58_almzk_verdict",
    "C58_ipa_verdict_sized",
    "C58_almzk_verdict_sized",
    "C58_qesa_verdict",
    "C58_zk_verdict",
    "C58_copy_verdict",
    "C58_lmpa_verdict",
    "C58_simplezk_verdict",
    "C58_lmpa_verdict_square",
    "C58_kary_verdict",
    "C58_otherwise_panics"
   ],
   "note": ""
  },
  {
   "property": "C59",
   "status": "proved",
   "theorems": [
    "C59_almzk_create_returns_iff",
    "C59_mask_positions_zero_panics",
    "C59_parallel_panics",
    "C59_length_one_panics"
   ],
   "note": ""
  },
  {
   "property": "C60",
   "status": "proved",
   "theorems": [
    "C60_ipa_response",
    "C60_almzk_two_reveals"
   ],
   "note": ""
  },
  {
   "property": "C61",
   "status": "proved",
   "theorems": [
    "C61_lmpa_surplus_rounds",
    "C61_simplezk_surplus_rounds",
    "C61_kary_surplus_blocks",
    "C61_copy_inner_commitment_ignored",
    "C61_every_accepted_proof_has_a_twin"
   ],
   "note": ""
  },
  {
   "property": "C62",
   "status": "proved",
   "theorems": [
    "C62_batch_row_value",
    "C62_batch_row_equation",
    "C62_batching_sound",
    "C62_bad_challenges",
    "C62_target_not_batched",
    "C62_efficient_communication_passes",
    "C62_lmpa_batch_passes",
    "C62_batched_equation_not_checked"
   ],
   "note": ""
  },
  {
   "property": "C63",
   "status": "proved",
   "theorems": [
    "C63_pedersen_hiding",
    "C63_pedersen_binding",
    "C63_relation_equivocates",
    "C63_commit_hiding",
    "C63_commit_binding",
    "C63_commit_last_index_not_binding",
    "C63_commit_repeated_index_not_binding"
   ],
   "note": ""
  },
  {
   "property": "C64",
   "status": "proved",
   "theorems": [
    "C64_copy_soundness",
    "C64_copy_soundness_independent"
   ],
   "note": ""
  },
  {
   "property": "C65",
   "status": "proved",
   "theorems": [
    "C65_later_assertions_hold",
    "C65_mapping_test_outcome",
    "C65_enough_room_always_passes",
    "C65_one_less_fails_on_distinct_draws",
    "C65_failing_draws",
    "C65_test_as_written"
   ],
   "note": ""
  },
  {
   "property": "C66",
   "status": "proved",
   "theorems": [
    "C66_helper_outcome",
    "C66_helper_rows_vanish",
    "C66_helper_test_outcome",
    "C66_g1_helper_outcome",
    "C66_g1_system",
    "C66_g1_test_passes",
    "C66_inner_proof_test_passes",
    "C66_g1_proof_test_passes"
   ],
   "note": ""
  },
  {
   "property": "C67",
   "status": "proved",
   "theorems": [
    "C67_mapping_room",
    "C67_copy_test_outcome",
    "C67_two_commit_test"
   ],
   "note": ""
  },
  {
   "property": "C68",
   "status": "proved",
   "theorems": [
    "C68_qesa_prover_checks",
    "C68_qesa_prover_returns_iff",
    "C68_qesa_prover_rejects",
    "C68_zk_prover_returns_iff",
    "C68_zk_prover_rejects",
    "C68_copy_prover_checks",
    "C68_copy_prover_rejects",
    "C68_copy_prover_returns_iff"
   ],
   "note": ""
  },
  {
   "property": "C69",
   "status": "proved",
   "theorems": [
    "C69_version1_two_rounds_panic",
    "C69_version1_test_panics",
    "C69_version1_target_ignored",
    "C69_version2_target_ignored",
    "C69_protocol39_exact",
    "C69_test39_exact",
    "C69_version1_exact",
    "C69_version1_test_exact",
    "C69_version2_exact",
    "C69_version2_test_exact",
    "C69_version2_no_rows_diverges",
    "C69_tests_as_written",
    "C69_version1_binary64_refuted",
    "C69_version2_binary64_refuted",
    "C69_exact_numbers",
    "C69_binary64_numbers"
   ],
   "note": ""
  },
  {
   "property": "C70",
   "status": "proved",
   "theorems": [
    "C70_vandermonde_test",
    "C70_orth_test",
    "C70_sample_test",
    "C70_sample_tests_small_panic",
    "C70_sample_twice_test",
    "C70_nozk_test",
    "C70_nozk_test_alpha_zero",
    "C70_almzk_test_panics",
    "C70_almzk_test_passes",
    "C70_lmpa_tests",
    "C70_kary_tests",
    "C70_commitment_test"
   ],
   "note": ""
  },
  {
   "property": "C71",
   "status": "proved",
   "theorems": [
    "C71_prover_failures",
    "C71_prover_dichotomy",
    "C71_run_failures",
    "C71_unit_test_failures"
   ],
   "note": ""
  },
  {
   "property": "C72",
   "status": "proved",
   "theorems": [
    "C72_ipa_surplus_generators",
    "C72_almzk_surplus_generators",
    "C72_lmpa_generators_unused",
    "C72_lmpa_verify_strided",
    "C72_simplezk_verify_strided",
    "C72_wide_honest_run",
    "C72_complete_for_any_n"
   ],
   "note": ""
  },
  {
   "property": "C73",
   "status": "proved",
   "theorems": [
    "C73_release_agrees",
    "C73_release_wraps",
    "C73_release_large_n",
    "C73_release_tiny_n"
   ],
   "note": ""
  },
  {
   "property": "C74",
   "status": "proved",
   "theorems": [
    "C74_qesa_failures",
    "C74_qesa_zk_failures",
    "C74_copy_failures"
   ],
   "note": ""
  },
  {
   "property": "C75",
   "status": "proved",
   "theorems": [
    "C75_nozk_soundness_error",
    "C75_almzk_soundness_error",
    "C75_qesa_batched_soundness_error",
    "C75_qesa_soundness_error",
    "C75_lmpa_soundness_error",
    "C75_lmpa_false_statement",
    "C75_simplezk_soundness_error",
    "C75_copy_soundness_error"
   ],
   "note": ""
  },
  {
   "property": "C76",
   "status": "proved",
   "theorems": [
    "C76_second_mask",
    "C76_simulated_accepted",
    "C76_almzk_zero_knowledge",
    "C76_almzk_statistical_zk",
    "C76_almzk_witness_indistinguishable"
   ],
   "note": ""
  },
  {
   "property": "C77",
   "status": "proved",
   "theorems": [
    "C77_qesa_statistical_zk",
    "C77_qesa_simulated_accepted",
    "C77_qesa_witness_indistinguishable"
   ],
   "note": ""
  },
  {
   "property": "C78",
   "status": "proved",
   "theorems": [
    "C78_copy_statistical_zk",
    "C78_copy_simulated_accepted",
    "C78_copy_witness_indistinguishable"
   ],
   "note": ""
  },
  {
   "property": "C79",
   "status": "proved",
   "theorems": [
    "C79_nozk_fiat_shamir",
    "C79_almzk_fiat_shamir",
    "C79_qesa_batched_fiat_shamir",
    "C79_qesa_fiat_shamir",
    "C79_copy_fiat_shamir",
    "C79_lmpa_fiat_shamir",
    "C79_lmpa_false_statement",
    "C79_simplezk_fiat_shamir",
    "C79_simplezk_false_statement",
    "C79_nozk_any_prover",
    "C79_lmpa_any_prover",
    "C79_simplezk_any_prover"
   ],
   "note": ""
  },
  {
   "property": "C80",
   "status": "proved",
   "theorems": [
    "C80_ipa_verdict",
    "C80_no_rounds",
    "C80_complete",
    "C80_nozk_fiat_shamir",
    "C80_almzk_fiat_shamir",
    "C80_qesa_batched_fiat_shamir",
    "C80_qesa_fiat_shamir",
    "C80_copy_fiat_shamir"
   ],
   "note": ""
  },
  {
   "property": "C81",
   "status": "proved",
   "theorems": [
    "C81_vandemonde_challenge",
    "C81_vandemonde_vector",
    "C81_vandemonde_vector_general",
    "C81_sample",
    "C81_qesa_prover",
    "C81_copy_prover",
    "C81_u_vec_loop",
    "C81_z_vec_loop",
    "C81_kary_prover",
    "C81_kary_verifier",
    "C81_ipa_small",
    "C81_ipa_release",
    "C81_almzk_release",
    "C81_qesa_release",
    "C81_copy_release",
    "C81_builds_agree_refuted",
    "C81_nozk_prover_bound",
    "C81_almzk_prover_bound",
    "C81_qesa_prover_bound",
    "C81_copy_prover_bound"
   ],
   "note": ""
  },
  {
   "property": "C82",
   "status": "proved",
   "theorems": [
    "C82_ipa_same_transcript",
    "C82_almzk_same_transcript",
    "C82_inner_same_transcript",
    "C82_qesa_same_transcript",
    "C82_copy_same_transcript",
    "C82_qesa_nizk",
    "C82_copy_nizk",
    "C82_qesa_witness_hidden",
    "C82_copy_witness_hidden"
   ],
   "note": ""
  },
  {
   "property": "C83",
   "status": "proved",
   "theorems": [
    "C83_qesa_many",
    "C83_qesa_many_witnesses_hidden",
    "C83_copy_many",
    "C83_copy_many_witnesses_hidden"
   ],
   "note": ""
  },
  {
   "property": "C84",
   "status": "proved",
   "theorems": [
    "C84_simple_zk_nizk",
    "C84_simple_zk_many",
    "C84_simple_zk_witnesses_hidden"
   ],
   "note": ""
  },
  {
   "property": "C85",
   "status": "proved",
   "theorems": [
    "C85_most_generators",
    "C85_qesa_random_generators"
   ],
   "note": ""
  },
  {
   "property": "C86",
   "status": "proved",
   "theorems": [
    "C86_nozk_extractor",
    "C86_almzk_extractor",
    "C86_qesa_batched_extractor",
    "C86_qesa_extractor",
    "C86_lmpa_extractor",
    "C86_simplezk_extractor",
    "C86_copy_extractor"
   ],
   "note": ""
  },
  {
   "property": "C87",
   "status": "proved",
   "theorems": [
    "C87_relation_gives_dlog",
    "C87_binding_gives_dlog",
    "C87_nozk_dlog",
    "C87_almzk_dlog",
    "C87_qesa_dlog",
    "C87_copy_dlog"
   ],
   "note": ""
  },
  {
   "property": "C88",
   "status": "proved",
   "theorems": [
    "C88_input_determines_history",
    "C88_bytes_are_sponge_output",
    "C88_no_panic",
    "C88_challenge_scalar"
   ],
   "note": ""
  },
  {
   "property": "C89",
   "status": "proved",
   "theorems": [
    "C89_almzk_nizk",
    "C89_almzk_witness_hidden",
    "C89_almzk_many"
   ],
   "note": ""
  },
  {
   "property": "C90",
   "status": "proved",
   "theorems": [
    "C90_nozk_extractor",
    "C90_almzk_extractor",
    "C90_lmpa_extractor",
    "C90_simplezk_extractor",
    "C90_qesa_batched_extractor",
    "C90_qesa_extractor",
    "C90_copy_extractor",
    "C90_nozk_any_prover",
    "C90_lmpa_any_prover",
    "C90_simplezk_any_prover"
   ],
   "note": ""
  },
  {
   "property": "C91",
   "status": "proved",
   "theorems": [
    "C91_nozk_dlog",
    "C91_almzk_dlog",
    "C91_qesa_dlog",
    "C91_copy_dlog"
   ],
   "note": ""
  },
  {
   "property": "C92",
   "status": "proved",
   "theorems": [
    "C92_count",
    "C92_distance",
    "C92_numbering",
    "C92_ristretto",
    "C92_at_most",
    "C92_fiat_shamir",
    "C92_nozk",
    "C92_qesa",
    "C92_qesa_failures",
    "C92_differ",
    "C92_simple_zk",
    "C92_qesa_witness_hidden"
   ],
   "note": ""
  },
  {
   "property": "C93",
   "status": "proved",
   "theorems": [
    "C93_nozk_extractor",
    "C93_almzk_extractor",
    "C93_qesa_batched_extractor",
    "C93_qesa_extractor",
    "C93_copy_extractor",
    "C93_nozk_dlog",
    "C93_almzk_dlog",
    "C93_qesa_dlog",
    "C93_copy_dlog"
   ],
   "note": ""
  },
  {
   "property": "C94",
   "status": "proved",
   "theorems": [
    "C94_transpose",
    "C94_batch",
    "C94_qesa_verifies",
    "C94_qesa_verdict",
    "C94_qesa_zk_verdict",
    "C94_qesa_prover_returns_iff",
    "C94_honest_run",
    "C94_honest_accepted",
    "C94_uneven_rows_fail",
    "C94_copy_verdict"
   ],
   "note": ""
  },
  {
   "property": "C95",
   "status": "proved",
   "theorems": [
    "C95_lmpa_prover_returns_iff",
    "C95_lmpa_prover_loops",
    "C95_simple_zk_prover_returns_iff",
    "C95_kary_verdict",
    "C95_kary_prover_returns_iff",
    "C95_general_prover_returns_iff",
    "C95_general_verdict",
    "C95_copy_prover_run",
    "C95_copy_prover_returns_iff"
   ],
   "note": ""
  },
  {
   "property": "C96",
   "status": "proved",
   "theorems": [
    "C96_matrix_split",
    "C96_point_transpose",
    "C96_kary_verdict",
    "C96_kary_verdict_small",
    "C96_kary_prover_returns_iff",
    "C96_kary_prover_k1",
    "C96_kary_prover_loops",
    "C96_kary_prover_any_k",
    "C96_general_prover_returns_iff",
    "C96_general_verdict"
   ],
   "note": ""
  },
  {
   "property": "C97",
   "status": "proved",
   "theorems": [
    "C97_different_arguments",
    "C97_ipa_same",
    "C97_alm_same",
    "C97_qesa_same",
    "C97_copy_same",
    "C97_lmpa_same",
    "C97_simplezk_same",
    "C97_kary_same",
    "C97_general_same",
    "C97_kary_division"
   ],
   "note": ""
  },
  {
   "property": "C98",
   "status": "proved",
   "theorems": [
    "C98_place",
    "C98_whole_session",
    "C98_lmpa_boundary",
    "C98_simplezk_boundary"
   ],
   "note": ""
  },
  {
   "property": "C99",
   "status": "proved",
   "theorems": [
    "C99_nozk",
    "C99_almzk",
    "C99_qesa",
    "C99_copy",
    "C99_lmpa",
    "C99_simplezk",
    "C99_copy_failures",
    "C99_qesa_witnesses_hidden",
    "C99_copy_witnesses_hidden",
    "C99_simplezk_witnesses_hidden",
    "C99_almzk_witness_hidden"
   ],
   "note": ""
  },
  {
   "property": "C100",
   "status": "proved",
   "theorems": [
    "C100_qesa_witnesses_hidden",
    "C100_copy_witnesses_hidden",
    "C100_qesa_bytes",
    "C100_copy_bytes"
   ],
   "note": ""
  },
  {
   "property": "C101",
   "status": "proved",
   "theorems": [
    "C101_same_outcome",
    "C101_alpha_zero",
    "C101_accepted_line",
    "C101_forgery",
    "C101_forgery_P_hashed"
   ],
   "note": ""
  },
  {
   "property": "C102",
   "status": "proved",
   "theorems": [
    "C102_nozk",
    "C102_almzk",
    "C102_lmpa",
    "C102_lmpa_false",
    "C102_simplezk",
    "C102_simplezk_false",
    "C102_qesa",
    "C102_copy",
    "C102_lmpa_any_prover",
    "C102_simplezk_any_prover",
    "C102_readable",
    "C102_nozk_every_prover",
    "C102_almzk_every_prover",
    "C102_qesa_every_prover",
    "C102_copy_every_prover"
   ],
   "note": ""
  },
  {
   "property": "C103",
   "status": "proved",
   "theorems": [
    "C103_nozk",
    "C103_almzk",
    "C103_qesa",
    "C103_copy",
    "C103_lmpa",
    "C103_simplezk"
   ],
   "note": ""
  },
  {
   "property": "C104",
   "status": "proved",
   "theorems": [
    "C104_nozk_extractor",
    "C104_almzk_extractor",
    "C104_lmpa_extractor",
    "C104_simplezk_extractor",
    "C104_qesa_extractor",
    "C104_copy_extractor",
    "C104_nozk_dlog",
    "C104_almzk_dlog",
    "C104_qesa_dlog",
    "C104_copy_dlog",
    "C104_nozk_every_prover",
    "C104_almzk_every_prover",
    "C104_lmpa_every_prover",
    "C104_simplezk_every_prover",
    "C104_qesa_every_prover",
    "C104_copy_every_prover"
   ],
   "note": ""
  },
  {
   "property": "C105",
   "status": "proved",
   "theorems": [
    "C105_transfer",
    "C105_runs",
    "C105_nozk",
    "C105_almzk",
    "C105_qesa_batched",
    "C105_qesa",
    "C105_copy",
    "C105_nozk_chosen",
    "C105_almzk_chosen",
    "C105_lmpa_chosen",
    "C105_simplezk_chosen",
    "C105_qesa_chosen",
    "C105_copy_chosen"
   ],
   "note": ""
  },
  {
   "property": "C106",
   "status": "proved",
   "theorems": [
    "C106_transfer",
    "C106_runs",
    "C106_nozk",
    "C106_almzk",
    "C106_qesa",
    "C106_copy",
    "C106_nozk_chosen",
    "C106_almzk_chosen",
    "C106_qesa_chosen",
    "C106_copy_chosen"
   ],
   "note": ""
  }
 ]
}