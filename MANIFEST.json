{
 "claims": [
  {
   "property": "C01",
   "status": "proved",
   "theorems": [
    "C01_merkle_completeness"
   ],
   "note": ""
  },
  {
   "property": "C02",
   "status": "proved",
   "theorems": [
    "C02_last_leaf_panics",
    "C02_all_open_iff_power_of_two",
    "C02_out_of_range_panics",
    "C02_empty_root_panics"
   ],
   "note": ""
  },
  {
   "property": "C03",
   "status": "proved",
   "theorems": [
    "C03_merkle_binding",
    "C03_high_index_bits_ignored"
   ],
   "note": ""
  },
  {
   "property": "C04",
   "status": "proved",
   "theorems": [
    "C04_equal_concatenation_collides",
    "C04_decimal_collisions",
    "C04_leaf_node_confusion"
   ],
   "note": ""
  },
  {
   "property": "C05",
   "status": "proved",
   "theorems": [
    "C05_fold_identity"
   ],
   "note": ""
  },
  {
   "property": "C06",
   "status": "proved",
   "theorems": [
    "C06_layer_contents",
    "C06_opposite_points"
   ],
   "note": ""
  },
  {
   "property": "C07",
   "status": "proved",
   "theorems": [
    "C07_fri_completeness"
   ],
   "note": ""
  },
  {
   "property": "C08",
   "status": "proved",
   "theorems": [
    "C08_generate_panics_iff"
   ],
   "note": ""
  },
  {
   "property": "C09",
   "status": "proved",
   "theorems": [
    "C09_proof_shape"
   ],
   "note": ""
  },
  {
   "property": "C10",
   "status": "proved",
   "theorems": [
    "C10_verifier_decision"
   ],
   "note": ""
  },
  {
   "property": "C11",
   "status": "proved",
   "theorems": [
    "C11_roots_not_authenticated",
    "C11_no_path_ends_in_a_root"
   ],
   "note": ""
  },
  {
   "property": "C12",
   "status": "proved",
   "theorems": [
    "C12_no_decommitments_accepted",
    "C12_no_roots_accepted",
    "C12_dropping_decommitments"
   ],
   "note": ""
  },
  {
   "property": "C13",
   "status": "proved",
   "theorems": [
    "C13_no_degree_bound"
   ],
   "note": ""
  },
  {
   "property": "C14",
   "status": "proved",
   "theorems": [
    "C14_domain_zero_panics",
    "C14_domain_too_large_panics",
    "C14_coset_zero_panics"
   ],
   "note": ""
  },
  {
   "property": "C15",
   "status": "proved",
   "theorems": [
    "C15_transcript_history"
   ],
   "note": ""
  },
  {
   "property": "C16",
   "status": "proved",
   "theorems": [
    "C16_transcript_binding",
    "C16_transcript_binding_prime_field"
   ],
   "note": ""
  },
  {
   "property": "C17",
   "status": "proved",
   "theorems": [
    "C17_challenges_use_64_bits"
   ],
   "note": ""
  },
  {
   "property": "C18",
   "status": "proved",
   "theorems": [
    "C18_srs_contents"
   ],
   "note": ""
  },
  {
   "property": "C19",
   "status": "proved",
   "theorems": [
    "C19_commit",
    "C19_commit_untrimmed_panics",
    "C19_commit_vector"
   ],
   "note": ""
  },
  {
   "property": "C20",
   "status": "proved",
   "theorems": [
    "C20_homomorphism",
    "C20_commit_para"
   ],
   "note": ""
  },
  {
   "property": "C21",
   "status": "proved",
   "theorems": [
    "C21_aggregate",
    "C21_aggregate_commits"
   ],
   "note": ""
  },
  {
   "property": "C22",
   "status": "proved",
   "theorems": [
    "C22_open",
    "C22_open_panics_iff",
    "C22_open_vector",
    "C22_open_vector_panics"
   ],
   "note": ""
  },
  {
   "property": "C23",
   "status": "proved",
   "theorems": [
    "C23_completeness",
    "C23_completeness_vector"
   ],
   "note": ""
  },
  {
   "property": "C24",
   "status": "proved",
   "theorems": [
    "C24_verify_equation",
    "C24_value_unique",
    "C24_binding"
   ],
   "note": ""
  },
  {
   "property": "C25",
   "status": "proved",
   "theorems": [
    "C25_wrong_value_rejected"
   ],
   "note": ""
  },
  {
   "property": "C26",
   "status": "proved",
   "theorems": [
    "C26_batch_complete",
    "C26_batch_sound",
    "C26_batch_lengths_panic"
   ],
   "note": ""
  },
  {
   "property": "C27",
   "status": "proved",
   "theorems": [
    "C27_sum_of_openings"
   ],
   "note": ""
  },
  {
   "property": "C28",
   "status": "proved",
   "theorems": [
    "C28_matrix_vector",
    "C28_hadamard",
    "C28_scale",
    "C28_add",
    "C28_sub",
    "C28_equal"
   ],
   "note": ""
  },
  {
   "property": "C29",
   "status": "proved",
   "theorems": [
    "C29_satisfied_iff",
    "C29_shape_panics"
   ],
   "note": ""
  },
  {
   "property": "C30",
   "status": "proved",
   "theorems": [
    "C30_fold_any_challenge",
    "C30_prover_preserves",
    "C30_prover_returns"
   ],
   "note": ""
  },
  {
   "property": "C31",
   "status": "proved",
   "theorems": [
    "C31_cross_term",
    "C31_cross_term_total"
   ],
   "note": ""
  },
  {
   "property": "C32",
   "status": "proved",
   "theorems": [
    "C32_fold_commutes",
    "C32_fold_entries"
   ],
   "note": ""
  },
  {
   "property": "C33",
   "status": "proved",
   "theorems": [
    "C33_nifs_complete"
   ],
   "note": ""
  },
  {
   "property": "C34",
   "status": "proved",
   "theorems": [
    "C34_prove_zero_panics",
    "C34_self_fold_panics"
   ],
   "note": ""
  },
  {
   "property": "C35",
   "status": "proved",
   "theorems": [
    "C35_accepts_unsatisfied",
    "C35_forgery"
   ],
   "note": ""
  },
  {
   "property": "C36",
   "status": "proved",
   "theorems": [
    "C36_challenge_ignores_instances",
    "C36_adaptive_instance"
   ],
   "note": ""
  },
  {
   "property": "C37",
   "status": "proved",
   "theorems": [
    "C37_panics_iff",
    "C37_outputs",
    "C37_binding",
    "C37_from_commitment",
    "C37_from_scalar_number"
   ],
   "note": ""
  },
  {
   "property": "C38",
   "status": "proved",
   "theorems": [
    "C38_failed_run_changes_nothing",
    "C38_history",
    "C38_run_output",
    "C38_next_step_panics"
   ],
   "note": ""
  },
  {
   "property": "C39",
   "status": "proved",
   "theorems": [
    "C39_ivc_driver"
   ],
   "note": ""
  },
  {
   "property": "C40",
   "status": "proved",
   "theorems": [
    "C40_accepts_any_state"
   ],
   "note": ""
  },
  {
   "property": "C41",
   "status": "proved",
   "theorems": [
    "C41_step_zero",
    "C41_later_accepts_iff",
    "C41_missing_parts",
    "C41_wrong_instance",
    "C41_no_public_input"
   ],
   "note": ""
  },
  {
   "property": "C42",
   "status": "proved",
   "theorems": [
    "C42_run_succeeds_iff",
    "C42_any_running_instance"
   ],
   "note": ""
  },
  {
   "property": "C43",
   "status": "proved",
   "theorems": [
    "C43_hash_io_binding"
   ],
   "note": ""
  },
  {
   "property": "C44",
   "status": "proved",
   "theorems": [
    "C44_add_gate",
    "C44_mul_gate",
    "C44_constant_gate",
    "C44_dummy_gate",
    "C44_compiled_rows"
   ],
   "note": ""
  },
  {
   "property": "C45",
   "status": "proved",
   "theorems": [
    "C45_compile_returns_iff",
    "C45_never_errors",
    "C45_short_circuits_panic",
    "C45_compiled_size"
   ],
   "note": ""
  },
  {
   "property": "C46",
   "status": "proved",
   "theorems": [
    "C46_call_rows",
    "C46_padding_rows",
    "C46_wf"
   ],
   "note": ""
  },
  {
   "property": "C47",
   "status": "proved",
   "theorems": [
    "C47_sigma_rows",
    "C47_positions_outside_panic",
    "C47_code_injective"
   ],
   "note": ""
  },
  {
   "property": "C48",
   "status": "proved",
   "theorems": [
    "C48_split",
    "C48_zero_panics"
   ],
   "note": ""
  },
  {
   "property": "C49",
   "status": "proved",
   "theorems": [
    "C49_completeness"
   ],
   "note": ""
  },
  {
   "property": "C50",
   "status": "proved",
   "theorems": [
    "C50_gates",
    "C50_permutation_product",
    "C50_copy_soundness"
   ],
   "note": ""
  },
  {
   "property": "C51",
   "status": "proved",
   "theorems": [
    "C51_returns_iff",
    "C51_satisfied_circuits"
   ],
   "note": ""
  },
  {
   "property": "C52",
   "status": "proved",
   "theorems": [
    "C52_verify"
   ],
   "note": ""
  },
  {
   "property": "C53",
   "status": "proved",
   "theorems": [
    "C53_prover_ignores_digest",
    "C53_mismatch_rejected",
    "C53_some_digest_rejects"
   ],
   "note": ""
  },
  {
   "property": "C54",
   "status": "proved",
   "theorems": [
    "C54_panics_iff",
    "C54_no_panic_returns",
    "C54_outputs",
    "C54_from_commitments",
    "C54_binding"
   ],
   "note": ""
  },
  {
   "property": "C55",
   "status": "proved",
   "theorems": [
    "C55_characters",
    "C55_numerals",
    "C55_expansion",
    "C55_case_and_blanks",
    "C55_power_zero",
    "C55_power_of_name",
    "C55_power_of_numeral"
   ],
   "note": ""
  },
  {
   "property": "C56",
   "status": "proved",
   "theorems": [
    "C56_positions_permute",
    "C56_subexpressions"
   ],
   "note": ""
  },
  {
   "property": "C57",
   "status": "proved",
   "theorems": [
    "C57_parsed_equation",
    "C57_only_solutions",
    "C57_all_solutions"
   ],
   "note": ""
  },
  {
   "property": "C58",
   "status": "proved",
   "theorems": [
    "C58_not_enforced",
    "C58_forged_proof"
   ],
   "note": ""
  },
  {
   "property": "C59",
   "status": "proved",
   "theorems": [
    "C59_pieces",
    "C59_trimming",
    "C59_never_errors",
    "C59_returns_iff",
    "C59_normalise_panics_iff",
    "C59_normalise_never_errors",
    "C59_equals_signs",
    "C59_lower_case_names",
    "C59_upper_case_witness",
    "C59_literals"
   ],
   "note": ""
  },
  {
   "property": "C60",
   "status": "proved",
   "theorems": [
    "C60_preprocessed",
    "C60_witness_independent",
    "C60_never_errors",
    "C60_negative_right_side"
   ],
   "note": ""
  },
  {
   "property": "C61",
   "status": "proved",
   "theorems": [
    "C61_trivial_satisfied_iff",
    "C61_trivial_u_is_one",
    "C61_test_relation_unsatisfied"
   ],
   "note": ""
  },
  {
   "property": "C62",
   "status": "proved",
   "theorems": [
    "C62_nifs_verify_iff"
   ],
   "note": ""
  },
  {
   "property": "C63",
   "status": "proved",
   "theorems": [
    "C63_goldilocks_prime",
    "C63_goldilocks",
    "C63_bls",
    "C63_fri_completeness",
    "C63_wire_codes_distinct",
    "C63_copy_soundness",
    "C63_goldilocks_field_exists",
    "C63_bls_prime",
    "C63_bls_field_exists"
   ],
   "note": ""
  },
  {
   "property": "C64",
   "status": "proved",
   "theorems": [
    "C64_public_inputs_unbound",
    "C64_accepted_for_others"
   ],
   "note": ""
  },
  {
   "property": "C65",
   "status": "proved",
   "theorems": [
    "C65_forgery",
    "C65_forgery_outside_domain"
   ],
   "note": ""
  },
  {
   "property": "C66",
   "status": "proved",
   "theorems": [
    "C66_trapdoor_forgery"
   ],
   "note": ""
  },
  {
   "property": "C67",
   "status": "proved",
   "theorems": [
    "C67_few_bad_alpha",
    "C67_few_bad_v",
    "C67_few_bad_u",
    "C67_soundness",
    "C67_few_bad_zeta",
    "C67_few_bad_trapdoor",
    "C67_few_bad_beta_gamma",
    "C67_honest_explained"
   ],
   "note": ""
  },
  {
   "property": "C68",
   "status": "proved",
   "theorems": [
    "C68_degree_unbound"
   ],
   "note": ""
  },
  {
   "property": "C69",
   "status": "proved",
   "theorems": [
    "C69_third_answer_commitment",
    "C69_extraction",
    "C69_accepting_challenges",
    "C69_surplus_inputs_dropped"
   ],
   "note": ""
  },
  {
   "property": "C70",
   "status": "proved",
   "theorems": [
    "C70_authenticated_query",
    "C70_consistent_everywhere",
    "C70_inconsistent_positions",
    "C70_honest_proofs",
    "C70_rejection"
   ],
   "note": ""
  },
  {
   "property": "C71",
   "status": "proved",
   "theorems": [
    "C71_verdict_depends_on_public_part",
    "C71_verifier_needs_no_witness",
    "C71_completeness_across_witnesses"
   ],
   "note": ""
  },
  {
   "property": "C72",
   "status": "proved",
   "theorems": [
    "C72_kzg_example",
    "C72_fri_example",
    "C72_plonk_example",
    "C72_example_proves_no_equation",
    "C72_example_fields"
   ],
   "note": ""
  },
  {
   "property": "C73",
   "status": "proved",
   "theorems": [
    "C73_proof_shows_view",
    "C73_every_view_once",
    "C73_witnesses_indistinguishable"
   ],
   "note": ""
  },
  {
   "property": "C74",
   "status": "proved",
   "theorems": [
    "C74_small_degrees",
    "C74_machine_verdict",
    "C74_raised_degree_panics",
    "C74_anyone_can_panic",
    "C74_unchecked_total",
    "C74_honest_proofs"
   ],
   "note": ""
  },
  {
   "property": "C75",
   "status": "proved",
   "theorems": [
    "C75_digest_length",
    "C75_padding_blocks",
    "C75_fri_goldilocks",
    "C75_plonk_bls",
    "C75_test_vectors"
   ],
   "note": ""
  },
  {
   "property": "C76",
   "status": "proved",
   "theorems": [
    "C76_code_is_interactive",
    "C76_soundness_error",
    "C76_bls_negligible"
   ],
   "note": ""
  },
  {
   "property": "C77",
   "status": "proved",
   "theorems": [
    "C77_verifier",
    "C77_prover_with_checks",
    "C77_prover_without_checks",
    "C77_completeness",
    "C77_lost_blowup"
   ],
   "note": ""
  },
  {
   "property": "C78",
   "status": "proved",
   "theorems": [
    "C78_fiat_shamir",
    "C78_bls"
   ],
   "note": ""
  },
  {
   "property": "C79",
   "status": "proved",
   "theorems": [
    "C79_opening",
    "C79_opening_error",
    "C79_batch_error",
    "C79_bls_batch"
   ],
   "note": ""
  },
  {
   "property": "C80",
   "status": "proved",
   "theorems": [
    "C80_plonk_history",
    "C80_plonk_proofs",
    "C80_plonk_collision",
    "C80_nova_history",
    "C80_nova_proofs",
    "C80_fri_history"
   ],
   "note": ""
  },
  {
   "property": "C81",
   "status": "proved",
   "theorems": [
    "C81_first_instance_last",
    "C81_second_instance_last",
    "C81_unsatisfiable"
   ],
   "note": ""
  },
  {
   "property": "C82",
   "status": "proved",
   "theorems": [
    "C82_folding_error",
    "C82_fiat_shamir",
    "C82_bls"
   ],
   "note": ""
  },
  {
   "property": "C83",
   "status": "proved",
   "theorems": [
    "C83_nonempty",
    "C83_empty",
    "C83_empty_unprovable",
    "C83_srs",
    "C83_srs_useless"
   ],
   "note": ""
  },
  {
   "property": "C84",
   "status": "proved",
   "theorems": [
    "C84_query_distribution",
    "C84_query_error",
    "C84_wrong_layers",
    "C84_goldilocks"
   ],
   "note": ""
  },
  {
   "property": "C85",
   "status": "proved",
   "theorems": [
    "C85_plonk_honest_failures",
    "C85_few_bad_blinders",
    "C85_plonk_bls",
    "C85_fri_honest_failures",
    "C85_fri_goldilocks"
   ],
   "note": ""
  },
  {
   "property": "C86",
   "status": "proved",
   "theorems": [
    "C86_base_modulus_prime",
    "C86_scalar_bytes",
    "C86_base_bytes",
    "C86_point_bytes",
    "C86_plonk_binding",
    "C86_nova_binding",
    "C86_hash_io_binding",
    "C86_public_io_modulo_r",
    "C86_public_io_three"
   ],
   "note": ""
  },
  {
   "property": "C87",
   "status": "proved",
   "theorems": [
    "C87_driver_panics_iff",
    "C87_ivc_honest_failures",
    "C87_fold_honest_failures",
    "C87_ivc_bls"
   ],
   "note": ""
  },
  {
   "property": "C88",
   "status": "proved",
   "theorems": [
    "C88_gate_count",
    "C88_compiles",
    "C88_solution_bls",
    "C88_no_solution_bls"
   ],
   "note": ""
  },
  {
   "property": "C89",
   "status": "proved",
   "theorems": [
    "C89_verdict_from_preprocessed_input",
    "C89_verdict_from_the_text",
    "C89_preprocessing_returns"
   ],
   "note": ""
  },
  {
   "property": "C90",
   "status": "proved",
   "theorems": [
    "C90_collision_reduction",
    "C90_padding_injective",
    "C90_length_extension",
    "C90_plonk_transcript",
    "C90_nova_transcript",
    "C90_fri_transcript"
   ],
   "note": ""
  },
  {
   "property": "C91",
   "status": "proved",
   "theorems": [
    "C91_negative_right_side",
    "C91_renaming_preprocessed",
    "C91_renaming_parse",
    "C91_negated_numeral_not_proved"
   ],
   "note": ""
  },
  {
   "property": "C92",
   "status": "proved",
   "theorems": [
    "C92_vector_binding",
    "C92_openings_bind",
    "C92_collisions_exist"
   ],
   "note": ""
  },
  {
   "property": "C93",
   "status": "proved",
   "theorems": [
    "C93_preprocessor_ignores_zeros",
    "C93_leading_zeros_mismatch"
   ],
   "note": ""
  },
  {
   "property": "C94",
   "status": "proved",
   "theorems": [
    "C94_shown_value",
    "C94_first_fold",
    "C94_unknown_entry",
    "C94_enough_proofs",
    "C94_right_guess",
    "C94_wrong_guess"
   ],
   "note": ""
  },
  {
   "property": "C95",
   "status": "proved",
   "theorems": [
    "C95_other_values_hidden",
    "C95_commitment_and_openings_determine",
    "C95_one_for_each_value"
   ],
   "note": ""
  },
  {
   "property": "C96",
   "status": "proved",
   "theorems": [
    "C96_openings_are_values",
    "C96_points_for_positions",
    "C96_enough_positions_determine",
    "C96_right_guess_confirmed",
    "C96_wrong_guess_collides"
   ],
   "note": ""
  },
  {
   "property": "C97",
   "status": "proved",
   "theorems": [
    "C97_relaxed_relation",
    "C97_relation",
    "C97_generated_pairs",
    "C97_at_most_three"
   ],
   "note": ""
  }
 ]
}