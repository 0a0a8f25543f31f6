(* Generated by tools/mkmanifest.py: assumptions of every property theorem. *)
From Verif Require Import FriProps FriAuthProps FriMachineProps KzgProps NovaProps NovaIvcProps NovaDriverProps NovaSoundProps PlonkProps PlonkChallengeProps ConcreteProps ShaProps ProgramProps PlonkHideProps PlonkMachineProps ParserProps CpiProps PlonkForgeProps PlonkSoundProps PlonkErrorProps PlonkFsProps KzgAlgProps SeedProps NovaForgeProps NovaErrorProps PlonkSizesProps FriQueryProps HonestErrorProps HonestFriProps EncodingProps NovaHonestProps EquationProps CpiVerifyProps ShaMdProps RenameProps MerkleProps NumeralProps NovaRevealProps KzgRevealProps FriRevealProps TestRelationProps.
Print Assumptions C01_merkle_completeness.
Print Assumptions C02_last_leaf_panics.
Print Assumptions C02_all_open_iff_power_of_two.
Print Assumptions C02_out_of_range_panics.
Print Assumptions C02_empty_root_panics.
Print Assumptions C03_merkle_binding.
Print Assumptions C03_high_index_bits_ignored.
Print Assumptions C04_equal_concatenation_collides.
Print Assumptions C04_decimal_collisions.
Print Assumptions C04_leaf_node_confusion.
Print Assumptions C05_fold_identity.
Print Assumptions C06_layer_contents.
Print Assumptions C06_opposite_points.
Print Assumptions C07_fri_completeness.
Print Assumptions C08_generate_panics_iff.
Print Assumptions C09_proof_shape.
Print Assumptions C10_verifier_decision.
Print Assumptions C11_roots_not_authenticated.
Print Assumptions C11_no_path_ends_in_a_root.
Print Assumptions C12_no_decommitments_accepted.
Print Assumptions C12_no_roots_accepted.
Print Assumptions C12_dropping_decommitments.
Print Assumptions C13_no_degree_bound.
Print Assumptions C14_domain_zero_panics.
Print Assumptions C14_domain_too_large_panics.
Print Assumptions C14_coset_zero_panics.
Print Assumptions C15_transcript_history.
Print Assumptions C16_transcript_binding.
Print Assumptions C16_transcript_binding_prime_field.
Print Assumptions C17_challenges_use_64_bits.
Print Assumptions C70_authenticated_query.
Print Assumptions C70_consistent_everywhere.
Print Assumptions C70_inconsistent_positions.
Print Assumptions C70_honest_proofs.
Print Assumptions C70_rejection.
Print Assumptions C77_verifier.
Print Assumptions C77_prover_with_checks.
Print Assumptions C77_prover_without_checks.
Print Assumptions C77_completeness.
Print Assumptions C77_lost_blowup.
Print Assumptions C18_srs_contents.
Print Assumptions C19_commit.
Print Assumptions C19_commit_untrimmed_panics.
Print Assumptions C19_commit_vector.
Print Assumptions C20_homomorphism.
Print Assumptions C20_commit_para.
Print Assumptions C21_aggregate.
Print Assumptions C21_aggregate_commits.
Print Assumptions C22_open.
Print Assumptions C22_open_panics_iff.
Print Assumptions C22_open_vector.
Print Assumptions C22_open_vector_panics.
Print Assumptions C24_verify_equation.
Print Assumptions C24_value_unique.
Print Assumptions C24_binding.
Print Assumptions C23_completeness.
Print Assumptions C23_completeness_vector.
Print Assumptions C25_wrong_value_rejected.
Print Assumptions C26_batch_complete.
Print Assumptions C26_batch_sound.
Print Assumptions C26_batch_lengths_panic.
Print Assumptions C27_sum_of_openings.
Print Assumptions C28_matrix_vector.
Print Assumptions C28_hadamard.
Print Assumptions C28_scale.
Print Assumptions C28_add.
Print Assumptions C28_sub.
Print Assumptions C28_equal.
Print Assumptions C29_satisfied_iff.
Print Assumptions C29_shape_panics.
Print Assumptions C31_cross_term.
Print Assumptions C31_cross_term_total.
Print Assumptions C32_fold_commutes.
Print Assumptions C32_fold_entries.
Print Assumptions C30_fold_any_challenge.
Print Assumptions C30_prover_preserves.
Print Assumptions C30_prover_returns.
Print Assumptions C33_nifs_complete.
Print Assumptions C34_prove_zero_panics.
Print Assumptions C34_self_fold_panics.
Print Assumptions C35_accepts_unsatisfied.
Print Assumptions C35_forgery.
Print Assumptions C36_challenge_ignores_instances.
Print Assumptions C36_adaptive_instance.
Print Assumptions C37_panics_iff.
Print Assumptions C37_outputs.
Print Assumptions C37_binding.
Print Assumptions C37_from_commitment.
Print Assumptions C37_from_scalar_number.
Print Assumptions C38_failed_run_changes_nothing.
Print Assumptions C38_history.
Print Assumptions C38_run_output.
Print Assumptions C38_next_step_panics.
Print Assumptions C42_run_succeeds_iff.
Print Assumptions C42_any_running_instance.
Print Assumptions C41_step_zero.
Print Assumptions C41_later_accepts_iff.
Print Assumptions C41_missing_parts.
Print Assumptions C41_wrong_instance.
Print Assumptions C41_no_public_input.
Print Assumptions C62_nifs_verify_iff.
Print Assumptions C43_hash_io_binding.
Print Assumptions C40_accepts_any_state.
Print Assumptions C61_trivial_satisfied_iff.
Print Assumptions C61_trivial_u_is_one.
Print Assumptions C61_test_relation_unsatisfied.
Print Assumptions C39_ivc_driver.
Print Assumptions C69_third_answer_commitment.
Print Assumptions C69_extraction.
Print Assumptions C69_accepting_challenges.
Print Assumptions C69_surplus_inputs_dropped.
Print Assumptions C44_add_gate.
Print Assumptions C44_mul_gate.
Print Assumptions C44_constant_gate.
Print Assumptions C44_dummy_gate.
Print Assumptions C44_compiled_rows.
Print Assumptions C45_compile_returns_iff.
Print Assumptions C45_never_errors.
Print Assumptions C45_short_circuits_panic.
Print Assumptions C45_compiled_size.
Print Assumptions C46_call_rows.
Print Assumptions C46_padding_rows.
Print Assumptions C46_wf.
Print Assumptions C47_sigma_rows.
Print Assumptions C47_positions_outside_panic.
Print Assumptions C47_code_injective.
Print Assumptions C48_split.
Print Assumptions C48_zero_panics.
Print Assumptions C49_completeness.
Print Assumptions C50_gates.
Print Assumptions C50_permutation_product.
Print Assumptions C50_copy_soundness.
Print Assumptions C51_returns_iff.
Print Assumptions C51_satisfied_circuits.
Print Assumptions C52_verify.
Print Assumptions C53_prover_ignores_digest.
Print Assumptions C53_mismatch_rejected.
Print Assumptions C53_some_digest_rejects.
Print Assumptions C54_panics_iff.
Print Assumptions C54_no_panic_returns.
Print Assumptions C54_outputs.
Print Assumptions C54_from_commitments.
Print Assumptions C54_binding.
Print Assumptions C63_goldilocks_prime.
Print Assumptions C63_goldilocks.
Print Assumptions C63_bls.
Print Assumptions C63_fri_completeness.
Print Assumptions C63_wire_codes_distinct.
Print Assumptions C63_copy_soundness.
Print Assumptions C63_goldilocks_field_exists.
Print Assumptions C63_bls_prime.
Print Assumptions C63_bls_field_exists.
Print Assumptions C75_digest_length.
Print Assumptions C75_padding_blocks.
Print Assumptions C75_fri_goldilocks.
Print Assumptions C75_plonk_bls.
Print Assumptions C71_verdict_depends_on_public_part.
Print Assumptions C71_verifier_needs_no_witness.
Print Assumptions C71_completeness_across_witnesses.
Print Assumptions C72_kzg_example.
Print Assumptions C72_fri_example.
Print Assumptions C72_plonk_example.
Print Assumptions C72_example_proves_no_equation.
Print Assumptions C72_example_fields.
Print Assumptions C73_proof_shows_view.
Print Assumptions C73_every_view_once.
Print Assumptions C73_witnesses_indistinguishable.
Print Assumptions C74_small_degrees.
Print Assumptions C74_machine_verdict.
Print Assumptions C74_raised_degree_panics.
Print Assumptions C74_anyone_can_panic.
Print Assumptions C74_unchecked_total.
Print Assumptions C74_honest_proofs.
Print Assumptions C55_characters.
Print Assumptions C55_numerals.
Print Assumptions C59_pieces.
Print Assumptions C59_trimming.
Print Assumptions C55_expansion.
Print Assumptions C55_case_and_blanks.
Print Assumptions C55_power_zero.
Print Assumptions C55_power_of_name.
Print Assumptions C55_power_of_numeral.
Print Assumptions C56_positions_permute.
Print Assumptions C56_subexpressions.
Print Assumptions C57_parsed_equation.
Print Assumptions C58_not_enforced.
Print Assumptions C57_only_solutions.
Print Assumptions C57_all_solutions.
Print Assumptions C58_forged_proof.
Print Assumptions C59_never_errors.
Print Assumptions C59_returns_iff.
Print Assumptions C59_normalise_panics_iff.
Print Assumptions C59_normalise_never_errors.
Print Assumptions C59_equals_signs.
Print Assumptions C59_lower_case_names.
Print Assumptions C59_upper_case_witness.
Print Assumptions C59_literals.
Print Assumptions C60_preprocessed.
Print Assumptions C60_witness_independent.
Print Assumptions C60_never_errors.
Print Assumptions C60_negative_right_side.
Print Assumptions C64_public_inputs_unbound.
Print Assumptions C64_accepted_for_others.
Print Assumptions C66_trapdoor_forgery.
Print Assumptions C68_degree_unbound.
Print Assumptions C65_forgery.
Print Assumptions C65_forgery_outside_domain.
Print Assumptions C67_few_bad_alpha.
Print Assumptions C67_few_bad_v.
Print Assumptions C67_few_bad_u.
Print Assumptions C67_soundness.
Print Assumptions C67_few_bad_zeta.
Print Assumptions C67_few_bad_trapdoor.
Print Assumptions C67_few_bad_beta_gamma.
Print Assumptions C67_honest_explained.
Print Assumptions C76_code_is_interactive.
Print Assumptions C76_soundness_error.
Print Assumptions C76_bls_negligible.
Print Assumptions C78_fiat_shamir.
Print Assumptions C78_bls.
Print Assumptions C79_opening.
Print Assumptions C79_opening_error.
Print Assumptions C79_batch_error.
Print Assumptions C79_bls_batch.
Print Assumptions C80_plonk_history.
Print Assumptions C80_plonk_proofs.
Print Assumptions C80_plonk_collision.
Print Assumptions C80_nova_history.
Print Assumptions C80_nova_proofs.
Print Assumptions C80_fri_history.
Print Assumptions C81_first_instance_last.
Print Assumptions C81_second_instance_last.
Print Assumptions C81_unsatisfiable.
Print Assumptions C82_folding_error.
Print Assumptions C82_fiat_shamir.
Print Assumptions C82_bls.
Print Assumptions C83_nonempty.
Print Assumptions C83_empty.
Print Assumptions C83_empty_unprovable.
Print Assumptions C83_srs.
Print Assumptions C83_srs_useless.
Print Assumptions C84_query_distribution.
Print Assumptions C84_query_error.
Print Assumptions C84_wrong_layers.
Print Assumptions C84_goldilocks.
Print Assumptions C85_plonk_honest_failures.
Print Assumptions C85_few_bad_blinders.
Print Assumptions C85_plonk_bls.
Print Assumptions C85_fri_honest_failures.
Print Assumptions C85_fri_goldilocks.
Print Assumptions C86_base_modulus_prime.
Print Assumptions C86_scalar_bytes.
Print Assumptions C86_base_bytes.
Print Assumptions C86_point_bytes.
Print Assumptions C86_plonk_binding.
Print Assumptions C86_nova_binding.
Print Assumptions C86_hash_io_binding.
Print Assumptions C86_public_io_modulo_r.
Print Assumptions C86_public_io_three.
Print Assumptions C87_driver_panics_iff.
Print Assumptions C87_ivc_honest_failures.
Print Assumptions C87_fold_honest_failures.
Print Assumptions C87_ivc_bls.
Print Assumptions C88_gate_count.
Print Assumptions C88_compiles.
Print Assumptions C88_solution_bls.
Print Assumptions C88_no_solution_bls.
Print Assumptions C89_verdict_from_preprocessed_input.
Print Assumptions C89_verdict_from_the_text.
Print Assumptions C89_preprocessing_returns.
Print Assumptions C90_collision_reduction.
Print Assumptions C90_padding_injective.
Print Assumptions C90_length_extension.
Print Assumptions C75_test_vectors.
Print Assumptions C90_plonk_transcript.
Print Assumptions C90_nova_transcript.
Print Assumptions C90_fri_transcript.
Print Assumptions C91_negative_right_side.
Print Assumptions C91_renaming_preprocessed.
Print Assumptions C91_renaming_parse.
Print Assumptions C91_negated_numeral_not_proved.
Print Assumptions C92_vector_binding.
Print Assumptions C92_openings_bind.
Print Assumptions C92_collisions_exist.
Print Assumptions C93_preprocessor_ignores_zeros.
Print Assumptions C93_leading_zeros_mismatch.
Print Assumptions C94_shown_value.
Print Assumptions C94_first_fold.
Print Assumptions C94_unknown_entry.
Print Assumptions C94_enough_proofs.
Print Assumptions C94_right_guess.
Print Assumptions C94_wrong_guess.
Print Assumptions C95_other_values_hidden.
Print Assumptions C95_commitment_and_openings_determine.
Print Assumptions C95_one_for_each_value.
Print Assumptions C96_openings_are_values.
Print Assumptions C96_points_for_positions.
Print Assumptions C96_enough_positions_determine.
Print Assumptions C96_right_guess_confirmed.
Print Assumptions C96_wrong_guess_collides.
Print Assumptions C97_relaxed_relation.
Print Assumptions C97_relation.
Print Assumptions C97_generated_pairs.
Print Assumptions C97_at_most_three.
