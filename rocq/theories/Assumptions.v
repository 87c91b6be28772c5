(** Axioms used by the property theorems: one tuple per property holds all its theorems, one
    tuple holds all of those, and what Print Assumptions lists for it is the union of what it
    lists for each theorem. *)
From Verif Require Import PropMath PropGram PropIpa PropAlm PropQesa PropQesaSound PropQesaAttack PropLmpa PropSimpleZK PropKary PropMapping PropCopy PropCopyCases PropTranscript PropChallenge PropTotal PropPanic PropAlmFail PropMalleable PropBatch PropCopySound PropMapTest PropEqTest PropCopyTest PropProver PropFloat PropTests PropCount PropWide PropRelease PropQesaCount PropForking PropZkCount PropZk PropZkHide PropZkQesa PropZkCopy PropFiatShamir PropShort PropOverflow PropNizk PropNizkMany PropNizkLmpa PropZkGen PropExtract PropDlog PropMerlin PropNizkAlm PropFsExtract PropFsDlog PropBytes PropFsAny PropShape PropInputs PropRagged PropSeparate PropSession PropBytesAll PropGenHidden PropNozkBind PropAdaptive PropAdaptiveAny PropBytesAdaptive PropAdaptiveExtract PropBytesExtract PropBytesDlog.

Definition axioms_C01 := (@C01_inner_product_sum, @C01_inner_product_comm, @C01_inner_product_linear).
Definition axioms_C02 := (@C02_vandemonde_challenge, @C02_vandemonde_challenge_panic).
Definition axioms_C03 := (@C03_vandemonde_vector, @C03_vandemonde_vector_panic, @C03_vandemonde_vector_general, @C03_vandemonde_vector_general_panic, @C03_vandemonde_matrix, @C03_vandemonde_matrix_panic, @C03_rand_matrix).
Definition axioms_C04 := (@C04_matrix_vector_mul, @C04_matrixpoint_vector_mul, @C04_matrix_vector_mul_general, @C04_linear).
Definition axioms_C05 := (@C05_row_row_add, @C05_row_row_sub, @C05_rowpoint_rowpoint_add, @C05_row_row_add_general, @C05_matrix_matrix_add, @C05_matrixpoint_matrix_add, @C05_matrix_matrix_add_general, @C05_matrix_scalar_mul, @C05_matrixpoint_scalar_mul, @C05_matrix_scalar_mul_general, @C05_vector_scalar_mul).
Definition axioms_C06 := (@C06_transpose, @C06_transpose_point, @C06_transpose_involution, @C06_transpose_point_involution, @C06_transpose_panic, @C06_transpose_point_panic).
Definition axioms_C07 := (@C07_transpose_adjoint, tt).
Definition axioms_C08 := (@C08_block_matrix_batch, @C08_block_matrix_batch_panic, @C08_block_matrix_build).
Definition axioms_C09 := (@C09_matrix_split, @C09_matrix_split_panic).
Definition axioms_C10 := (@C10_orth, @C10_orth_panic, @C10_orth_isotropic, @C10_orth_ristretto_refuted).
Definition axioms_C11 := (@C11_sample_gram_schmidt, @C11_sample_gram_schmidt_twice).
Definition axioms_C12 := (@C12_mask_support, @C12_mask_panic).
Definition axioms_C13 := (@C13_nozk_completeness, @C13_alpha_zero_rejects).
Definition axioms_C14 := (@C14_nozk_create_returns, @C14_nozk_create_no_divergence, @C14_nozk_proof_size).
Definition axioms_C15 := (@C15_nozk_verification_equation, tt).
Definition axioms_C16 := (@C16_nozk_special_soundness, @C16_nozk_soundness_independent).
Definition axioms_C17 := (@C17_bad_encoding_panics, @C17_wrong_length_panics, @C17_surplus_right_points_ignored, @C17_verify_terminates).
Definition axioms_C18 := (@C18_almzk_completeness, tt).
Definition axioms_C19 := (@C19_zero_vector_panics, @C19_verdict).
Definition axioms_C20 := (@C20_almzk_special_soundness, tt).
Definition axioms_C21 := (@C21_statement_not_bound, @C21_t_not_bound).
Definition axioms_C22 := (@C22_qesa_inner_completeness, tt).
Definition axioms_C23 := (@C23_qesa_zk_completeness, tt).
Definition axioms_C24 := (@C24_qesa_batched_soundness, @C24_qesa_soundness, @C24_qesa_soundness_independent).
Definition axioms_C25 := (@C25_qesa_unsatisfiable_accepted, tt).
Definition axioms_C26 := (@C26_qesa_verify_ignores_equations, @C26_qesa_create_ignores_equations, @C26_qesa_unsatisfiable_tail).
Definition axioms_C27 := (@C27_qesa_equations_not_bound, tt).
Definition axioms_C28 := (@C28_positions, tt).
Definition axioms_C29 := (@C29_metadata, tt).
Definition axioms_C30 := (@C30_succeeds_iff_room, tt).
Definition axioms_C31 := (@C31_index_zero_accepted, @C31_honest_proof_rejected).
Definition axioms_C32 := (@C32_sizes_truncated, @C32_multiple_of_65536_panics, @C32_large_power_of_two_panics, @C32_positions_inside_witness).
Definition axioms_C33 := (@C33_commit_value, @C33_commit_homomorphic).
Definition axioms_C34 := (@C34_copy_completeness, tt).
Definition axioms_C35 := (@C35_copy_equations, tt).
Definition axioms_C36 := (@C36_lmpa_completeness, tt).
Definition axioms_C37 := (@C37_lmpa_soundness_row0, @C37_lmpa_soundness_single_row).
Definition axioms_C38 := (@C38_lmpa_only_first_row, @C38_simple_zk_only_first_row, @C38_lmpa_false_statement_accepted, @C38_lmpa_sound_for_all_rows_refuted).
Definition axioms_C39 := (@C39_lmpa_create_returns, @C39_lmpa_create_terminates, @C39_lmpa_verify_terminates).
Definition axioms_C40 := (@C40_simple_zk_completeness, tt).
Definition axioms_C41 := (@C41_simple_zk_witness_indistinguishable, @C41_simple_zk_simulation, @C41_simple_zk_simulator_accepted, @C41_simple_zk_same_distribution, @C41_simple_zk_simulated_distribution).
Definition axioms_C42 := (@C42_simple_zk_soundness_row0, tt).
Definition axioms_C43 := (@C43_kary_completeness, tt).
Definition axioms_C44 := (@C44_kary_universal_forgery, @C44_kary_target_ignored, @C44_kary_matrix_ignored).
Definition axioms_C45 := (@C45_kary_k0_panics, @C45_kary_k1_diverges, @C45_kary_create_returns, @C45_kary_create_terminates, @C45_kary_verify_terminates).
Definition axioms_C46 := (@C46_general_completeness, @C46_general_no_round_verdict, @C46_general_complete_refuted).
Definition axioms_C47 := (@C47_general_response_unblinded, @C47_general_reveals_witness, @C47_general_distinguishable).
Definition axioms_C48 := (@C48_pedersen_value, @C48_pedersen_homomorphic).
Definition axioms_C49 := (@C49_challenge_is_reduction, @C49_preimage_count, @C49_bias, @C49_oracle, @C49_every_oracle).
Definition axioms_C50 := (@C50_ipa_layout, @C50_almzk_layout, @C50_qesa_layout, @C50_copy_layout, @C50_lmpa_layout, @C50_simplezk_layout, @C50_kary_layout, @C50_general_layout).
Definition axioms_C51 := (@C51_simple_zk_statement_not_bound, @C51_simple_zk_zero_map_forged, @C51_lmpa_statement_not_bound).
Definition axioms_C52 := (@C52_qesa_commitment_not_bound, @C52_qesa_two_equations).
Definition axioms_C53 := (@C53_copy_commitments_not_bound, @C53_copy_any_messages).
Definition axioms_C54 := (@C54_copy_equations_dropped, tt).
Definition axioms_C55 := (@C55_commitments_not_absorbed, @C55_shifted_commitments).
Definition axioms_C56 := (@C56_copy_enforces_equality, tt).
Definition axioms_C57 := (@C57_ipa_verifier_terminates, @C57_almzk_verifier_terminates, @C57_qesa_verifier_terminates, @C57_zk_verifier_terminates, @C57_copy_verifier_terminates, @C57_lmpa_verifier_terminates, @C57_simplezk_verifier_terminates, @C57_kary_verifier_terminates, @C57_general_verifier_terminates, @C57_ipa_prover_terminates, @C57_almzk_prover_terminates, @C57_qesa_prover_terminates, @C57_zk_prover_terminates, @C57_copy_prover_terminates).
Definition axioms_C58 := (@C58_ipa_verdict, @C58_almzk_verdict, @C58_ipa_verdict_sized, @C58_almzk_verdict_sized, @C58_qesa_verdict, @C58_zk_verdict, @C58_copy_verdict, @C58_lmpa_verdict, @C58_simplezk_verdict, @C58_lmpa_verdict_square, @C58_kary_verdict, @C58_otherwise_panics).
Definition axioms_C59 := (@C59_almzk_create_returns_iff, @C59_mask_positions_zero_panics, @C59_parallel_panics, @C59_length_one_panics).
Definition axioms_C60 := (@C60_ipa_response, @C60_almzk_two_reveals).
Definition axioms_C61 := (@C61_lmpa_surplus_rounds, @C61_simplezk_surplus_rounds, @C61_kary_surplus_blocks, @C61_copy_inner_commitment_ignored, @C61_every_accepted_proof_has_a_twin).
Definition axioms_C62 := (@C62_batch_row_value, @C62_batch_row_equation, @C62_batching_sound, @C62_bad_challenges, @C62_target_not_batched, @C62_efficient_communication_passes, @C62_lmpa_batch_passes, @C62_batched_equation_not_checked).
Definition axioms_C63 := (@C63_pedersen_hiding, @C63_pedersen_binding, @C63_relation_equivocates, @C63_commit_hiding, @C63_commit_binding, @C63_commit_last_index_not_binding, @C63_commit_repeated_index_not_binding).
Definition axioms_C64 := (@C64_copy_soundness, @C64_copy_soundness_independent).
Definition axioms_C65 := (@C65_later_assertions_hold, @C65_mapping_test_outcome, @C65_enough_room_always_passes, @C65_one_less_fails_on_distinct_draws, @C65_failing_draws, @C65_test_as_written).
Definition axioms_C66 := (@C66_helper_outcome, @C66_helper_rows_vanish, @C66_helper_test_outcome, @C66_g1_helper_outcome, @C66_g1_system, @C66_g1_test_passes, @C66_inner_proof_test_passes, @C66_g1_proof_test_passes).
Definition axioms_C67 := (@C67_mapping_room, @C67_copy_test_outcome, @C67_two_commit_test).
Definition axioms_C68 := (@C68_qesa_prover_checks, @C68_qesa_prover_returns_iff, @C68_qesa_prover_rejects, @C68_zk_prover_returns_iff, @C68_zk_prover_rejects, @C68_copy_prover_checks, @C68_copy_prover_rejects, @C68_copy_prover_returns_iff).
Definition axioms_C69 := (@C69_version1_two_rounds_panic, @C69_version1_test_panics, @C69_version1_target_ignored, @C69_version2_target_ignored, @C69_protocol39_exact, @C69_test39_exact, @C69_version1_exact, @C69_version1_test_exact, @C69_version2_exact, @C69_version2_test_exact, @C69_version2_no_rows_diverges, @C69_tests_as_written, @C69_version1_binary64_refuted, @C69_version2_binary64_refuted, @C69_exact_numbers, @C69_binary64_numbers).
Definition axioms_C70 := (@C70_vandermonde_test, @C70_orth_test, @C70_sample_test, @C70_sample_tests_small_panic, @C70_sample_twice_test, @C70_nozk_test, @C70_nozk_test_alpha_zero, @C70_almzk_test_panics, @C70_almzk_test_passes, @C70_lmpa_tests, @C70_kary_tests, @C70_commitment_test).
Definition axioms_C71 := (@C71_prover_failures, @C71_prover_dichotomy, @C71_run_failures, @C71_unit_test_failures).
Definition axioms_C72 := (@C72_ipa_surplus_generators, @C72_almzk_surplus_generators, @C72_lmpa_generators_unused, @C72_lmpa_verify_strided, @C72_simplezk_verify_strided, @C72_wide_honest_run, @C72_complete_for_any_n).
Definition axioms_C73 := (@C73_release_agrees, @C73_release_wraps, @C73_release_large_n, @C73_release_tiny_n).
Definition axioms_C74 := (@C74_qesa_failures, @C74_qesa_zk_failures, @C74_copy_failures).
Definition axioms_C75 := (@C75_nozk_soundness_error, @C75_almzk_soundness_error, @C75_qesa_batched_soundness_error, @C75_qesa_soundness_error, @C75_lmpa_soundness_error, @C75_lmpa_false_statement, @C75_simplezk_soundness_error, @C75_copy_soundness_error).
Definition axioms_C76 := (@C76_second_mask, @C76_simulated_accepted, @C76_almzk_zero_knowledge, @C76_almzk_statistical_zk, @C76_almzk_witness_indistinguishable).
Definition axioms_C77 := (@C77_qesa_statistical_zk, @C77_qesa_simulated_accepted, @C77_qesa_witness_indistinguishable).
Definition axioms_C78 := (@C78_copy_statistical_zk, @C78_copy_simulated_accepted, @C78_copy_witness_indistinguishable).
Definition axioms_C79 := (@C79_nozk_fiat_shamir, @C79_almzk_fiat_shamir, @C79_qesa_batched_fiat_shamir, @C79_qesa_fiat_shamir, @C79_copy_fiat_shamir, @C79_lmpa_fiat_shamir, @C79_lmpa_false_statement, @C79_simplezk_fiat_shamir, @C79_simplezk_false_statement, @C79_nozk_any_prover, @C79_lmpa_any_prover, @C79_simplezk_any_prover).
Definition axioms_C80 := (@C80_ipa_verdict, @C80_no_rounds, @C80_complete, @C80_nozk_fiat_shamir, @C80_almzk_fiat_shamir, @C80_qesa_batched_fiat_shamir, @C80_qesa_fiat_shamir, @C80_copy_fiat_shamir).
Definition axioms_C81 := (@C81_vandemonde_challenge, @C81_vandemonde_vector, @C81_vandemonde_vector_general, @C81_sample, @C81_qesa_prover, @C81_copy_prover, @C81_u_vec_loop, @C81_z_vec_loop, @C81_kary_prover, @C81_kary_verifier, @C81_ipa_small, @C81_ipa_release, @C81_almzk_release, @C81_qesa_release, @C81_copy_release, @C81_builds_agree_refuted, @C81_nozk_prover_bound, @C81_almzk_prover_bound, @C81_qesa_prover_bound, @C81_copy_prover_bound).
Definition axioms_C82 := (@C82_ipa_same_transcript, @C82_almzk_same_transcript, @C82_inner_same_transcript, @C82_qesa_same_transcript, @C82_copy_same_transcript, @C82_qesa_nizk, @C82_copy_nizk, @C82_qesa_witness_hidden, @C82_copy_witness_hidden).
Definition axioms_C83 := (@C83_qesa_many, @C83_qesa_many_witnesses_hidden, @C83_copy_many, @C83_copy_many_witnesses_hidden).
Definition axioms_C84 := (@C84_simple_zk_nizk, @C84_simple_zk_many, @C84_simple_zk_witnesses_hidden).
Definition axioms_C85 := (@C85_most_generators, @C85_qesa_random_generators).
Definition axioms_C86 := (@C86_nozk_extractor, @C86_almzk_extractor, @C86_qesa_batched_extractor, @C86_qesa_extractor, @C86_lmpa_extractor, @C86_simplezk_extractor, @C86_copy_extractor).
Definition axioms_C87 := (@C87_relation_gives_dlog, @C87_binding_gives_dlog, @C87_nozk_dlog, @C87_almzk_dlog, @C87_qesa_dlog, @C87_copy_dlog).
Definition axioms_C88 := (@C88_input_determines_history, @C88_bytes_are_sponge_output, @C88_no_panic, @C88_challenge_scalar).
Definition axioms_C89 := (@C89_almzk_nizk, @C89_almzk_witness_hidden, @C89_almzk_many).
Definition axioms_C90 := (@C90_nozk_extractor, @C90_almzk_extractor, @C90_lmpa_extractor, @C90_simplezk_extractor, @C90_qesa_batched_extractor, @C90_qesa_extractor, @C90_copy_extractor, @C90_nozk_any_prover, @C90_lmpa_any_prover, @C90_simplezk_any_prover).
Definition axioms_C91 := (@C91_nozk_dlog, @C91_almzk_dlog, @C91_qesa_dlog, @C91_copy_dlog).
Definition axioms_C92 := (@C92_count, @C92_distance, @C92_numbering, @C92_ristretto, @C92_at_most, @C92_fiat_shamir, @C92_nozk, @C92_qesa, @C92_qesa_failures, @C92_differ, @C92_simple_zk, @C92_qesa_witness_hidden).
Definition axioms_C93 := (@C93_nozk_extractor, @C93_almzk_extractor, @C93_qesa_batched_extractor, @C93_qesa_extractor, @C93_copy_extractor, @C93_nozk_dlog, @C93_almzk_dlog, @C93_qesa_dlog, @C93_copy_dlog).
Definition axioms_C94 := (@C94_transpose, @C94_batch, @C94_qesa_verifies, @C94_qesa_verdict, @C94_qesa_zk_verdict, @C94_qesa_prover_returns_iff, @C94_honest_run, @C94_honest_accepted, @C94_uneven_rows_fail, @C94_copy_verdict).
Definition axioms_C95 := (@C95_lmpa_prover_returns_iff, @C95_lmpa_prover_loops, @C95_simple_zk_prover_returns_iff, @C95_kary_verdict, @C95_kary_prover_returns_iff, @C95_general_prover_returns_iff, @C95_general_verdict, @C95_copy_prover_run, @C95_copy_prover_returns_iff).
Definition axioms_C96 := (@C96_matrix_split, @C96_point_transpose, @C96_kary_verdict, @C96_kary_verdict_small, @C96_kary_prover_returns_iff, @C96_kary_prover_k1, @C96_kary_prover_loops, @C96_kary_prover_any_k, @C96_general_prover_returns_iff, @C96_general_verdict).
Definition axioms_C97 := (@C97_different_arguments, @C97_ipa_same, @C97_alm_same, @C97_qesa_same, @C97_copy_same, @C97_lmpa_same, @C97_simplezk_same, @C97_kary_same, @C97_general_same, @C97_kary_division).
Definition axioms_C98 := (@C98_place, @C98_whole_session, @C98_lmpa_boundary, @C98_simplezk_boundary).
Definition axioms_C99 := (@C99_nozk, @C99_almzk, @C99_qesa, @C99_copy, @C99_lmpa, @C99_simplezk, @C99_copy_failures, @C99_qesa_witnesses_hidden, @C99_copy_witnesses_hidden, @C99_simplezk_witnesses_hidden, @C99_almzk_witness_hidden).
Definition axioms_C100 := (@C100_qesa_witnesses_hidden, @C100_copy_witnesses_hidden, @C100_qesa_bytes, @C100_copy_bytes).
Definition axioms_C101 := (@C101_same_outcome, @C101_alpha_zero, @C101_accepted_line, @C101_forgery, @C101_forgery_P_hashed).
Definition axioms_C102 := (@C102_nozk, @C102_almzk, @C102_lmpa, @C102_lmpa_false, @C102_simplezk, @C102_simplezk_false, @C102_qesa, @C102_copy, @C102_lmpa_any_prover, @C102_simplezk_any_prover, @C102_readable, @C102_nozk_every_prover, @C102_almzk_every_prover, @C102_qesa_every_prover, @C102_copy_every_prover).
Definition axioms_C103 := (@C103_nozk, @C103_almzk, @C103_qesa, @C103_copy, @C103_lmpa, @C103_simplezk).
Definition axioms_C104 := (@C104_nozk_extractor, @C104_almzk_extractor, @C104_lmpa_extractor, @C104_simplezk_extractor, @C104_qesa_extractor, @C104_copy_extractor, @C104_nozk_dlog, @C104_almzk_dlog, @C104_qesa_dlog, @C104_copy_dlog, @C104_nozk_every_prover, @C104_almzk_every_prover, @C104_lmpa_every_prover, @C104_simplezk_every_prover, @C104_qesa_every_prover, @C104_copy_every_prover).
Definition axioms_C105 := (@C105_transfer, @C105_runs, @C105_nozk, @C105_almzk, @C105_qesa_batched, @C105_qesa, @C105_copy, @C105_nozk_chosen, @C105_almzk_chosen, @C105_lmpa_chosen, @C105_simplezk_chosen, @C105_qesa_chosen, @C105_copy_chosen).
Definition axioms_C106 := (@C106_transfer, @C106_runs, @C106_nozk, @C106_almzk, @C106_qesa, @C106_copy, @C106_nozk_chosen, @C106_almzk_chosen, @C106_qesa_chosen, @C106_copy_chosen).
Definition axioms_all := (axioms_C01, axioms_C02, axioms_C03, axioms_C04, axioms_C05, axioms_C06, axioms_C07, axioms_C08, axioms_C09, axioms_C10, axioms_C11, axioms_C12, axioms_C13, axioms_C14, axioms_C15, axioms_C16, axioms_C17, axioms_C18, axioms_C19, axioms_C20, axioms_C21, axioms_C22, axioms_C23, axioms_C24, axioms_C25, axioms_C26, axioms_C27, axioms_C28, axioms_C29, axioms_C30, axioms_C31, axioms_C32, axioms_C33, axioms_C34, axioms_C35, axioms_C36, axioms_C37, axioms_C38, axioms_C39, axioms_C40, axioms_C41, axioms_C42, axioms_C43, axioms_C44, axioms_C45, axioms_C46, axioms_C47, axioms_C48, axioms_C49, axioms_C50, axioms_C51, axioms_C52, axioms_C53, axioms_C54, axioms_C55, axioms_C56, axioms_C57, axioms_C58, axioms_C59, axioms_C60, axioms_C61, axioms_C62, axioms_C63, axioms_C64, axioms_C65, axioms_C66, axioms_C67, axioms_C68, axioms_C69, axioms_C70, axioms_C71, axioms_C72, axioms_C73, axioms_C74, axioms_C75, axioms_C76, axioms_C77, axioms_C78, axioms_C79, axioms_C80, axioms_C81, axioms_C82, axioms_C83, axioms_C84, axioms_C85, axioms_C86, axioms_C87, axioms_C88, axioms_C89, axioms_C90, axioms_C91, axioms_C92, axioms_C93, axioms_C94, axioms_C95, axioms_C96, axioms_C97, axioms_C98, axioms_C99, axioms_C100, axioms_C101, axioms_C102, axioms_C103, axioms_C104, axioms_C105, axioms_C106).
Print Assumptions axioms_all.
