# What `Print Assumptions` lists

For every theorem and case about a property. All axioms are from the Coq standard library:

* forall_dec: `ClassicalDedekindReals.sig_forall_dec`
* not_dec: `ClassicalDedekindReals.sig_not_dec`
* funext: `FunctionalExtensionality.functional_extensionality_dep`
* classic: `Classical_Prop.classic`
* indefinite: `IndefiniteDescription.constructive_indefinite_description`
* epsilon: `ClassicalEpsilon.constructive_indefinite_description`
* relational: `RelationalChoice.relational_choice`
* unique: `ClassicalUniqueChoice.dependent_unique_choice`

| theorem | file | axioms |
|---|---|---|
| C01_case | PropsCodes.v | none |
| C01_case_letters | PropsStrings.v | none |
| C01_letters | PropsStrings.v | none |
| C01_string_roundtrip | PropsCodes.v | none |
| C02_case_bad_letter | PropsCodes.v | none |
| C02_case_letters | PropsStrings.v | none |
| C02_case_long | PropsCodes.v | none |
| C02_case_rows | PropsCodes.v | none |
| C02_case_short | PropsCodes.v | none |
| C02_letters | PropsStrings.v | none |
| C02_rows_roundtrip | PropsCodes.v | none |
| C02_strings_accepted_iff | PropsCodes.v | none |
| C02_strings_errors | PropsCodes.v | none |
| C03_case | PropsPauli.v | none |
| C03_inner_prod_decides_commutation | PropsPauli.v | none |
| C04_case | PropsCodes.v | none |
| C04_commutes_with_generated | PropsCodes.v | none |
| C04_inner_prod_additive | PropsCodes.v | none |
| C04_inner_prod_alternating | PropsCodes.v | none |
| C04_inner_prod_symmetric | PropsCodes.v | none |
| C04_inner_prod_value | PropsCodes.v | none |
| C05_case | PropsPauli.v | none |
| C05_entries | PropsPauli.v | none |
| C05_product | PropsPauli.v | none |
| C05_unitary_square | PropsPauli.v | none |
| C06_accepted_commute | PropsCodes.v | none |
| C06_accepted_rows | PropsCodes.v | none |
| C06_case_accepted | PropsCodes.v | none |
| C06_case_anticommuting | PropsCodes.v | none |
| C06_rejects | PropsCodes.v | none |
| C07_case | PropsCodes.v | none |
| C07_normal_form_same_code | PropsCodes.v | none |
| C07_relabel | PropsEncoded.v | none |
| C07_relabel_case | PropsEncoded.v | none |
| C08_case | PropsCodes.v | none |
| C08_normal_form_blocks | PropsCodes.v | none |
| C09_accepts_iff_partial | PropsCodes.v | none |
| C09_case | PropsCodes.v | none |
| C09_refuted | PropsCodes.v | none |
| C10_case | PropsCodes.v | none |
| C10_logical_relations | PropsCodes.v | none |
| C11_case | PropsCodes.v | none |
| C11_refuted | PropsCodes.v | none |
| C11_relabelled_partial | PropsCodes.v | none |
| C11_same_rowspace_partial | PropsCodes.v | none |
| C12_case | PropsCodes.v | none |
| C12_normaliser_complete | PropsCodes.v | none |
| C13_case_code | PropsPauli.v | none |
| C13_case_contract | PropsPauli.v | forall_dec, funext, not_dec |
| C13_encoder_isometry | PropsPauli.v | forall_dec, funext |
| C14_case | PropsPauli.v | none |
| C14_correcting_errors | PropsPauli.v | forall_dec, funext, not_dec |
| C15_case | PropsCircuits.v | none |
| C15_encoding | PropsCircuits.v | none |
| C16_case | PropsCircuits.v | none |
| C16_logical_x | PropsCircuits.v | none |
| C16_logical_y | PropsCircuits.v | none |
| C16_logical_z | PropsCircuits.v | none |
| C17_case | PropsCircuits.v | none |
| C17_decoding | PropsCircuits.v | none |
| C17_decoding_measured | PropsCircuits.v | none |
| C18_case | PropsCircuits.v | none |
| C18_error_syndrome | PropsCircuits.v | none |
| C18_syndrome | PropsCircuits.v | none |
| C19_case | PropsCircuits.v | none |
| C19_no_reset | PropsCircuits.v | none |
| C19_wrong_size | PropsCircuits.v | none |
| C20_case | PropsCircuits.v | none |
| C20_refuted | PropsCircuits.v | none |
| C20_rows_partial | PropsCircuits.v | none |
| C21_case | PropsCodes.v | none |
| C21_case_errors | PropsStrings.v | none |
| C21_refuted | PropsCodes.v | none |
| C21_repaired_errors_partial | PropsStrings.v | none |
| C21_repaired_partial | PropsCodes.v | none |
| C22_case | PropsCodes.v | none |
| C22_case_rows | PropsConcat.v | none |
| C22_concatenation_rows | PropsCodes.v | none |
| C22_rows | PropsConcat.v | none |
| C23_case | PropsCodes.v | none |
| C23_refuted | PropsCodes.v | none |
| C24_refuted | PropsCodes.v | none |
| C25_case | PropsCircuits.v | none |
| C25_no_ancillas_partial | PropsCircuits.v | none |
| C25_refuted | PropsCircuits.v | none |
| C25_returned_partial | PropsCircuits.v | none |
| C26_case | PropsCircuits.v | none |
| C26_first_ten_partial | PropsCircuits.v | none |
| C26_longer_partial | PropsCircuits.v | none |
| C26_refuted | PropsCircuits.v | none |
| C27_case | PropsCodes.v | none |
| C27_case_strings | PropsStrings.v | none |
| C27_checked_partial | PropsStrings.v | none |
| C27_count_enforced_partial | PropsCodes.v | none |
| C27_exception_refuted | PropsCodes.v | none |
| C27_length_refuted | PropsStrings.v | none |
| C27_refuted | PropsCodes.v | none |
| C27_same_constructor_partial | PropsStrings.v | none |
| C28_case | PropsKraus.v | none |
| C28_dense_history | PropsKraus.v | none |
| C29_case | PropsKraus.v | none |
| C29_refuted | PropsKraus.v | none |
| C29_sparse_history_partial | PropsKraus.v | none |
| C29_stale_channel_partial | PropsKraus.v | none |
| C29_stale_partial | PropsKraus.v | none |
| C30_case | PropsKraus.v | forall_dec, funext |
| C30_history_independent | PropsKraus.v | classic, forall_dec, funext, not_dec |
| C30_sparse | PropsKraus.v | classic, forall_dec, funext, not_dec |
| C31_case | PropsKraus.v | forall_dec, funext |
| C31_case_value | PropsKraus.v | none |
| C31_channel | PropsKraus.v | forall_dec, funext |
| C31_wrong_shape | PropsKraus.v | none |
| C32_adjoint | PropsKraus.v | none |
| C32_case | PropsKraus.v | none |
| C32_case_iff | PropsChan.v | forall_dec, funext |
| C32_unital | PropsKraus.v | none |
| C32_unital_iff | PropsChan.v | forall_dec, funext |
| C33_case | PropsKraus.v | none |
| C33_factorwise | PropsKraus.v | none |
| C34_batch | PropsKraus.v | none |
| C34_case | PropsKraus.v | none |
| C35_case | PropsKraus.v | none |
| C35_exchange | PropsKraus.v | forall_dec, funext |
| C36_adjoint | PropsKraus.v | none |
| C36_case | PropsKraus.v | none |
| C36_unital | PropsKraus.v | none |
| C37_case | PropsKraus.v | none |
| C37_halves_partial | PropsKraus.v | none |
| C37_refuted | PropsKraus.v | none |
| C37_returned_partial | PropsKraus.v | none |
| C38_accepted | PropsKraus.v | forall_dec, funext, not_dec |
| C38_case | PropsKraus.v | forall_dec, funext, not_dec |
| C38_case_mismatch | PropsKraus.v | forall_dec, funext, not_dec |
| C38_composition | PropsKraus.v | forall_dec, funext, not_dec |
| C38_history | PropsKraus.v | forall_dec, funext, not_dec |
| C38_mismatch | PropsKraus.v | forall_dec, funext, not_dec |
| C39_case | PropsKraus.v | none |
| C39_class_partial | PropsKraus.v | none |
| C39_kraus_add_partial | PropsKraus.v | none |
| C39_refuted | PropsKraus.v | none |
| C40_associative | PropsKraus.v | forall_dec, funext, not_dec |
| C40_case | PropsKraus.v | forall_dec, funext, not_dec |
| C40_operators | PropsKraus.v | none |
| C40_product | PropsKraus.v | forall_dec, funext, not_dec |
| C41_case | PropsKraus.v | forall_dec, funext, not_dec |
| C41_mul | PropsKraus.v | forall_dec, funext, not_dec |
| C41_refuted | PropsKraus.v | forall_dec, funext, not_dec |
| C42_case | PropsKraus.v | forall_dec, funext, not_dec |
| C42_check | PropsKraus.v | forall_dec, funext, not_dec |
| C42_constructor | PropsKraus.v | forall_dec, funext, not_dec |
| C42_exact | PropsKraus.v | forall_dec, funext, not_dec |
| C43_case | PropsKraus.v | forall_dec, funext |
| C43_dense_partial | PropsKraus.v | forall_dec, funext, not_dec |
| C43_diagonal_partial | PropsKraus.v | forall_dec, funext, not_dec |
| C43_object_partial | PropsChan.v | classic, forall_dec, funext, not_dec |
| C43_refuted | PropsKraus.v | forall_dec, funext, not_dec |
| C43_sparse_partial | PropsKraus.v | forall_dec, funext, not_dec |
| C44_case | PropsChoi.v | forall_dec, funext, not_dec |
| C44_choi_fidelity | PropsChoi.v | forall_dec, funext, not_dec |
| C44_identity | PropsChoi.v | forall_dec, funext, not_dec |
| C44_range | PropsChoi.v | forall_dec, funext, not_dec |
| C45_case | PropsChoi.v | none |
| C45_choi_is_kraus | PropsChoi.v | none |
| C45_objects | PropsChoi.v | forall_dec, funext |
| C46_case | PropsChoi.v | classic, forall_dec, funext, indefinite, not_dec |
| C46_close | PropsChoi.v | forall_dec, funext, not_dec |
| C46_positive | PropsChoi.v | forall_dec, funext, not_dec |
| C46_reproduces | PropsChoi.v | forall_dec, funext, not_dec |
| C46_same_channel | PropsChoi.v | forall_dec, funext, not_dec |
| C46_shapes | PropsChoi.v | forall_dec, funext, not_dec |
| C47_case | PropsChoi.v | classic, forall_dec, funext, indefinite, not_dec |
| C47_coherent_information | PropsChoi.v | classic, forall_dec, funext, not_dec |
| C47_common_factor | PropsChoi.v | forall_dec, funext |
| C47_entropy_unique | PropsChoi.v | classic, forall_dec, funext, not_dec |
| C47_kraus_value | PropsChoi.v | classic, forall_dec, funext, not_dec |
| C48_case | PropsChoi.v | forall_dec, funext |
| C48_hermitian_partial | PropsChoi.v | forall_dec, funext |
| C48_ignored_partial | PropsChoi.v | forall_dec, funext |
| C48_refuted | PropsChoi.v | forall_dec, funext |
| C49_attribute_partial | PropsChoi.v | none |
| C49_raises_partial | PropsChoi.v | none |
| C49_refuted | PropsChoi.v | forall_dec, funext, not_dec |
| C50_case | PropsParam.v | forall_dec, funext |
| C50_errors | PropsParam.v | forall_dec, funext |
| C50_layout | PropsParam.v | forall_dec, funext |
| C50_matrix_round_trip | PropsParam.v | forall_dec, funext |
| C50_vector_round_trip | PropsParam.v | forall_dec, funext |
| C51_case | PropsParam.v | forall_dec, funext |
| C51_density | PropsParam.v | classic, forall_dec, funext, not_dec |
| C51_density_no_rank | PropsParam.v | classic, forall_dec, funext, not_dec |
| C51_errors | PropsParam.v | forall_dec, funext, not_dec |
| C52_case | PropsParam.v | classic, forall_dec, funext, indefinite, not_dec |
| C52_round_trip | PropsParam.v | classic, forall_dec, funext, not_dec |
| C53_case | PropsParam.v | forall_dec |
| C53_counts | PropsParam.v | forall_dec |
| C53_density | PropsParam.v | classic, forall_dec, funext, not_dec |
| C53_errors | PropsParam.v | forall_dec, funext, not_dec |
| C54_case | PropsParam.v | classic, forall_dec, funext, indefinite, not_dec |
| C54_diagonal_partial | PropsParam.v | forall_dec, funext, not_dec |
| C54_exactly_partial | PropsParam.v | classic, forall_dec, funext, not_dec |
| C54_low_rank_partial | PropsParam.v | forall_dec, funext, not_dec |
| C54_refuted | PropsParam.v | classic, forall_dec, funext, not_dec |
| C54_small_partial | PropsParam.v | forall_dec, funext, not_dec |
| C55_case | PropsOptim.v | classic, forall_dec, funext, indefinite, not_dec |
| C55_draws | PropsOptim.v | forall_dec, funext, not_dec |
| C55_result | PropsOptim.v | forall_dec, funext, not_dec |
| C55_returns | PropsOptim.v | forall_dec, funext, not_dec |
| C55_steady | PropsOptim.v | classic, forall_dec, funext, not_dec |
| C56_accepts | PropsOptim.v | forall_dec, funext, not_dec |
| C56_case | PropsOptim.v | forall_dec, funext, not_dec |
| C57_case | PropsOptim.v | classic, forall_dec, funext, indefinite, not_dec |
| C57_coherent | PropsOptim.v | classic, forall_dec, funext, not_dec |
| C57_fidelity | PropsOptim.v | classic, forall_dec, funext, not_dec |
| C57_fidelity_case | PropsOptim.v | classic, forall_dec, funext, indefinite, not_dec |
| C58_case | PropsOptim.v | forall_dec, funext, not_dec |
| C58_case_rule | PropsOptim.v | forall_dec, funext |
| C58_first_partial | PropsOptim.v | forall_dec, funext |
| C58_last_partial | PropsOptim.v | forall_dec, funext |
| C58_one_of_the_runs_partial | PropsOptim.v | forall_dec, funext |
| C58_refuted | PropsOptim.v | forall_dec, funext, not_dec |
| C58_rule_partial | PropsOptim.v | forall_dec, funext |
| C59_case | PropsOptim.v | classic, forall_dec, funext, indefinite, not_dec |
| C59_fidelity_partial | PropsOptim.v | classic, forall_dec, funext, not_dec |
| C59_refuted | PropsOptim.v | classic, forall_dec, funext, not_dec |
| C59_two_samples_partial | PropsOptim.v | forall_dec, funext |
| C60_case | PropsOptim.v | forall_dec, funext, not_dec |
| C60_object_partial | PropsOptim.v | classic, forall_dec, funext, not_dec |
| C60_refuted | PropsOptim.v | classic, forall_dec, funext, not_dec |
| C60_unknown_partial | PropsOptim.v | classic, forall_dec, funext, not_dec |
| C61_bad_epsilon | PropsDevice.v | classic, forall_dec, funext, not_dec |
| C61_case | PropsDevice.v | classic, forall_dec, funext, not_dec |
| C61_every_choice | PropsDevice.v | classic, forall_dec, funext, not_dec |
| C61_inverse | PropsDevice.v | classic, forall_dec, funext, not_dec |
| C61_phases | PropsDevice.v | classic, forall_dec, funext, not_dec |
| C61_returns | PropsDevice.v | classic, forall_dec, funext, not_dec |
| C61_unitary | PropsDevice.v | classic, forall_dec, funext, not_dec |
| C62_case | PropsDevice.v | forall_dec, funext, not_dec |
| C62_identity | PropsDevice.v | classic, forall_dec, funext, not_dec |
| C62_negative | PropsDevice.v | classic, forall_dec, funext, not_dec |
| C62_range | PropsDevice.v | classic, forall_dec, funext, not_dec |
| C62_returns | PropsDevice.v | classic, forall_dec, funext, not_dec |
| C62_zero | PropsDevice.v | forall_dec, funext |
| C63_case | PropsDevice.v | forall_dec, funext, not_dec |
| C63_constructed_partial | PropsDevice.v | forall_dec, funext, not_dec |
| C63_each_trial_partial | PropsDevice.v | classic, forall_dec, funext, not_dec |
| C63_real_partial | PropsDevice.v | forall_dec, funext, not_dec |
| C63_refuted | PropsDevice.v | classic, forall_dec, funext, not_dec |
| C63_simulator_partial | PropsDevice.v | forall_dec, funext, not_dec |
| C63_superposition_partial | PropsDevice.v | forall_dec, funext, not_dec |
| C64_case | PropsDevice.v | classic, forall_dec, funext, not_dec |
| C64_optimizer_partial | PropsDevice.v | classic, forall_dec, funext, not_dec |
| C64_refuted | PropsDevice.v | classic, forall_dec, funext, not_dec |
| C64_three | PropsDevice.v | classic, forall_dec, funext, not_dec |
| C64_type_error_partial | PropsDevice.v | classic, forall_dec, funext, not_dec |
| C65_case | PropsFind.v | forall_dec, funext, not_dec |
| C65_case_value | PropsFind.v | classic, forall_dec, funext, indefinite, not_dec |
| C65_channel | PropsFind.v | classic, forall_dec, funext, not_dec |
| C65_operators | PropsFind.v | forall_dec, funext, not_dec |
| C65_value | PropsFind.v | classic, forall_dec, funext, not_dec |
| C66_assertion_partial | PropsFind.v | classic, forall_dec, funext, not_dec |
| C66_case | PropsFind.v | forall_dec, funext |
| C66_one_logical_qubit_partial | PropsFind.v | classic, forall_dec, funext, not_dec |
| C66_refuted | PropsFind.v | classic, forall_dec, funext, not_dec |
| C67_case | PropsAvgFid.v | forall_dec, funext |
| C67_exact_partial | PropsAvgFid.v | forall_dec, funext |
| C67_programme_partial | PropsAvgFid.v | forall_dec, funext |
| C67_range_partial | PropsAvgFid.v | forall_dec, funext, not_dec |
| C67_real_partial | PropsAvgFid.v | forall_dec, funext, not_dec |
| C67_refuted | PropsAvgFid.v | forall_dec, funext, not_dec |
| C68_name_error_partial | PropsAvgFid.v | forall_dec, funext, not_dec |
| C68_never_partial | PropsAvgFid.v | forall_dec, funext, not_dec |
| C68_refuted | PropsAvgFid.v | forall_dec, funext, not_dec |
| C69_at_most | PropsChoi.v | classic, forall_dec, funext, not_dec |
| C69_case | PropsChoi.v | classic, forall_dec, funext, indefinite, not_dec |
| C69_density | PropsChoi.v | classic, forall_dec, funext, not_dec |
| C69_mixed | PropsChoi.v | classic, forall_dec, funext, not_dec |
| C69_nonnegative | PropsChoi.v | classic, forall_dec, funext, not_dec |
| C69_pure | PropsChoi.v | classic, forall_dec, funext, not_dec |
| C70_case | PropsChoi.v | classic, forall_dec, funext, indefinite, not_dec |
| C70_fixed | PropsChoi.v | classic, forall_dec, funext, not_dec |
| C70_pure | PropsChoi.v | classic, forall_dec, funext, not_dec |
| C70_root_unique | PropsChoi.v | classic, forall_dec, funext, not_dec |
| C70_states | PropsChoi.v | classic, forall_dec, funext, not_dec |
| C71_case | PropsParam.v | forall_dec, funext |
| C71_cholesky | PropsParam.v | forall_dec, funext |
| C71_normal | PropsParam2.v | forall_dec, funext |
| C71_normal_case | PropsParam2.v | forall_dec, funext |
| C71_over | PropsParam.v | forall_dec, funext |
| C72_case | PropsOptim.v | classic, forall_dec, funext, indefinite, not_dec |
| C72_coherent | PropsOptim.v | classic, forall_dec, funext, not_dec |
| C72_fidelity | PropsOptim.v | classic, forall_dec, funext, not_dec |
| C73_case | PropsOptim.v | forall_dec, funext |
| C73_refuted | PropsOptim.v | classic, forall_dec, funext, not_dec |
| C74_case | PropsOptim.v | forall_dec, funext, not_dec |
| C74_keeps_best_partial | PropsOptim.v | forall_dec, funext, not_dec |
| C74_not_lipschitz_partial | PropsOptim.v | classic, forall_dec, funext, not_dec |
| C74_refuted | PropsOptim.v | classic, forall_dec, funext, not_dec |
| C75_case | PropsDevice.v | forall_dec, funext, not_dec |
| C75_channel | PropsDevice.v | classic, forall_dec, funext, not_dec |
| C75_error_code | PropsDevice.v | classic, forall_dec, funext, not_dec |
| C75_more | PropsDevice.v | classic, forall_dec, funext, not_dec |
| C75_trial | PropsDevice.v | classic, forall_dec, funext, not_dec |
| C76_case | PropsFind.v | classic, forall_dec, funext, not_dec |
| C76_never_partial | PropsFind.v | classic, forall_dec, funext, not_dec |
| C76_refuted | PropsFind.v | classic, forall_dec, funext, indefinite, not_dec |
| C76_value_error_partial | PropsFind.v | classic, forall_dec, funext, not_dec |
| C77_bound_partial | PropsAvgFid.v | classic, forall_dec, funext, not_dec |
| C77_case | PropsAvgFid.v | forall_dec, funext, not_dec |
| C77_documented_only_partial | PropsAvgFid.v | classic, forall_dec, funext, not_dec |
| C77_documented_partial | PropsAvgFid.v | forall_dec, funext, not_dec |
| C77_documented_value_partial | PropsAvgFid.v | forall_dec, funext, not_dec |
| C77_never_partial | PropsAvgFid.v | classic, forall_dec, funext, not_dec |
| C77_refuted | PropsAvgFid.v | classic, forall_dec, funext, not_dec, relational, unique |
| C77_result_partial | PropsAvgFid.v | classic, forall_dec, funext, not_dec |
| C78_case | PropsAvgFid.v | forall_dec, funext |
| C78_options | PropsAvgFid.v | forall_dec, funext |
| C79_assertion_partial | PropsAvgFid.v | forall_dec, funext, not_dec |
| C79_refuted | PropsAvgFid.v | forall_dec, funext, not_dec |
| C79_value_error_partial | PropsAvgFid.v | forall_dec, funext, not_dec |
| C80_case | PropsQec.v | none |
| C80_correction | PropsQec.v | none |
| C80_syndromes | PropsQec.v | none |
| C81_case | PropsOptim2.v | classic, forall_dec, funext, indefinite, not_dec |
| C81_coherent | PropsOptim2.v | classic, forall_dec, funext, not_dec |
| C81_fidelity | PropsOptim2.v | classic, forall_dec, funext, not_dec |
| C82_case | PropsOptim2.v | forall_dec, funext |
| C82_rejected | PropsOptim2.v | classic, forall_dec, funext, not_dec |
| C82_returns | PropsOptim2.v | classic, forall_dec, funext, not_dec |
| C82_returns_fidelity | PropsOptim2.v | classic, forall_dec, funext, not_dec |
| C82_too_few | PropsOptim2.v | classic, forall_dec, funext, not_dec |
| C82_too_few_fidelity | PropsOptim2.v | classic, forall_dec, funext, not_dec |
| C82_unknown | PropsOptim2.v | classic, forall_dec, funext, not_dec |
| C82_unknown_fidelity | PropsOptim2.v | classic, forall_dec, funext, not_dec |
| C83_callback | PropsOptim2.v | classic, forall_dec, funext, not_dec |
| C83_case | PropsOptim2.v | classic, forall_dec, funext, indefinite, not_dec |
| C84_bounds | PropsEntropy.v | classic, forall_dec, funext, not_dec |
| C84_case | PropsEntropy.v | classic, forall_dec, funext, indefinite, not_dec |
| C84_choi | PropsChan.v | classic, forall_dec, funext, not_dec |
| C84_isometry | PropsEntropy.v | classic, forall_dec, funext, not_dec |
| C84_pure | PropsEntropy.v | classic, forall_dec, funext, not_dec |
| C85_case | PropsEntropy.v | forall_dec, funext |
| C85_channel | PropsEntropy.v | forall_dec, funext |
| C85_coherent_information | PropsEntropy.v | classic, forall_dec, funext, not_dec |
| C86_case | PropsEntropy.v | classic, forall_dec, funext, indefinite, not_dec |
| C86_product | PropsEntropy.v | classic, forall_dec, funext, not_dec |
| C87_accessors | PropsChan.v | classic, forall_dec, funext, not_dec |
| C87_case | PropsChan.v | forall_dec, funext |
| C87_choi | PropsChan.v | forall_dec, funext |
| C87_qubit | PropsChan.v | classic, forall_dec, funext, not_dec |
| C88_case | PropsChan.v | forall_dec, funext |
| C88_product_partial | PropsChan.v | none |
| C88_refused_partial | PropsChan.v | none |
| C88_refuted | PropsChan.v | forall_dec, funext |
| C88_tensor_partial | PropsChan.v | none |
| C89_accepts | PropsChan.v | classic, forall_dec, funext, not_dec |
| C89_case | PropsChan.v | classic, epsilon, forall_dec, funext, not_dec |
| C89_density | PropsChan.v | classic, forall_dec, funext, not_dec |
| C89_once | PropsChan.v | classic, forall_dec, funext, not_dec |
| C89_positive | PropsChan.v | classic, forall_dec, funext, not_dec |
| C89_rejects | PropsChan.v | classic, forall_dec, funext, not_dec |
| C89_unchanged | PropsChan.v | classic, forall_dec, funext, not_dec |
| C89_wrong_size | PropsChan.v | forall_dec, funext |
| C90_case | PropsParam2.v | forall_dec, funext, not_dec |
| C90_cholesky | PropsParam2.v | classic, forall_dec, funext, indefinite, not_dec |
| C90_full_rank | PropsParam2.v | forall_dec, funext |
| C90_over | PropsParam2.v | classic, forall_dec, funext, indefinite, not_dec |
| C90_standard | PropsParam2.v | classic, forall_dec, funext, not_dec |
| C91_between_case | PropsChan.v | forall_dec, funext |
| C91_between_partial | PropsChan.v | forall_dec, funext |
| C91_case | PropsChan.v | forall_dec, funext |
| C91_fewer_out_partial | PropsChan.v | forall_dec, funext |
| C91_more_out_partial | PropsChan.v | forall_dec, funext |
| C91_refuted | PropsChan.v | classic, epsilon, forall_dec, funext, not_dec |
| C92_accepted_partial | PropsDepend.v | none |
| C92_case | PropsDepend.v | none |
| C92_dimension_partial | PropsDepend.v | classic, forall_dec, funext |
| C92_iff_independent_partial | PropsDepend.v | classic, forall_dec, funext |
| C92_refuted | PropsDepend.v | classic, forall_dec, funext, not_dec |
| C93_case | PropsDepend.v | none |
| C93_case_contract | PropsDepend.v | classic, forall_dec, funext, indefinite, not_dec |
| C93_even_partial | PropsDepend.v | forall_dec, funext |
| C93_odd_partial | PropsDepend.v | forall_dec, funext |
| C93_refuted | PropsDepend.v | classic, forall_dec, funext, indefinite, not_dec |
| C93_single_partial | PropsDepend.v | forall_dec, funext |
| C94_accepted_partial | PropsUserOps.v | none |
| C94_case | PropsUserOps.v | none |
| C94_case_decoding | PropsUserOps.v | none |
| C94_case_doc | PropsUserOps.v | none |
| C94_codespace_partial | PropsUserOps.v | none |
| C94_decoding_partial | PropsUserOps.v | none |
| C94_decoding_refuted | PropsUserOps.v | none |
| C94_encoding_partial | PropsUserOps.v | none |
| C94_logical_partial | PropsUserOps.v | none |
| C94_refuted | PropsUserOps.v | none |
| C95_case | PropsConcat.v | none |
| C95_case_needs | PropsConcat.v | none |
| C95_concatenation_valid_partial | PropsConcat.v | none |
| C95_needs_partial | PropsConcat.v | none |
| C95_refuted | PropsConcat.v | none |
| C95_several_partial | PropsConcat.v | none |
| C96_apply_partial | PropsRegister.v | none |
| C96_case | PropsRegister.v | none |
| C96_case_zero | PropsRegister.v | none |
| C96_decoding_added_partial | PropsRegister.v | none |
| C96_decoding_own_partial | PropsRegister.v | none |
| C96_encoding_partial | PropsRegister.v | none |
| C96_logical_partial | PropsRegister.v | none |
| C96_prepares_partial | PropsRegister.v | none |
| C96_refuted | PropsRegister.v | none |
| C96_syndrome_all_partial | PropsRegister.v | none |
| C96_syndrome_last_partial | PropsRegister.v | none |
| C97_apply_partial | PropsRegister.v | none |
| C97_case | PropsRegister.v | none |
| C97_decoding_partial | PropsRegister.v | none |
| C97_empty_register_partial | PropsRegister.v | none |
| C97_encoding_partial | PropsRegister.v | none |
| C97_logical_partial | PropsRegister.v | none |
| C97_refuted | PropsRegister.v | none |
| C97_syndrome_partial | PropsRegister.v | none |
| C98_case | PropsSetter.v | none |
| C98_conj_partial | PropsSetter.v | none |
| C98_current_partial | PropsSetter.v | none |
| C98_length_partial | PropsSetter.v | none |
| C98_lowered_partial | PropsSetter.v | none |
| C98_raised_partial | PropsSetter.v | none |
| C98_refuted | PropsSetter.v | none |
| C99_case | PropsProcessing.v | classic, forall_dec, funext, indefinite, not_dec |
| C99_processing | PropsProcessing.v | classic, forall_dec, funext, not_dec |
| C99_sum | PropsProcessing.v | classic, forall_dec, funext, not_dec |
| C99_undone | PropsProcessing.v | classic, forall_dec, funext, not_dec |
| C100_case | PropsProcessing.v | forall_dec, funext |
| C100_negative | PropsProcessing.v | classic, forall_dec, funext, not_dec |
| C100_positive | PropsProcessing.v | classic, forall_dec, funext, not_dec |
| C101_apart | PropsDegradable.v | classic, forall_dec, funext, not_dec |
| C101_case | PropsDegradable.v | classic, forall_dec, funext, indefinite, not_dec |
| C101_one_use | PropsDegradable.v | classic, forall_dec, funext, not_dec |
| C102_case | PropsDegradable.v | classic, forall_dec, funext, indefinite, not_dec |
| C102_mixture | PropsDegradable.v | classic, forall_dec, funext, not_dec |
| C103_branches_partial | PropsTextbook.v | none |
| C103_case | PropsTextbook.v | none |
| C103_coin_partial | PropsTextbook.v | none |
| C103_eigenvalue_partial | PropsTextbook.v | none |
| C103_opposite_partial | PropsTextbook.v | none |
| C103_refuted | PropsTextbook.v | none |
| C104_case | PropsTextbook.v | none |
| C104_even_partial | PropsTextbook.v | none |
| C104_odd_partial | PropsTextbook.v | none |
| C104_refuted | PropsTextbook.v | none |
| C105_case | PropsEncoded.v | none |
| C105_case_mixed | PropsEncoded.v | none |
| C105_css_partial | PropsEncoded.v | none |
| C105_fixed_partial | PropsEncoded.v | none |
| C105_refuted | PropsEncoded.v | none |
| C105_sign_partial | PropsEncoded.v | none |
| C105_up_to_sign_partial | PropsEncoded.v | none |
| C106_case | PropsWorkflow.v | none |
| C106_loop_partial | PropsWorkflow.v | none |
| C106_orthogonal_partial | PropsWorkflow.v | none |
| C106_refuted | PropsWorkflow.v | none |
| C107_case | PropsWorkflow.v | none |
| C107_measured | PropsWorkflow.v | none |
| C107_workflow | PropsWorkflow.v | none |
| C108_case | PropsUnital.v | forall_dec, funext |
| C108_identity | PropsUnital.v | forall_dec, funext |
| C109_case | PropsUnital.v | classic, forall_dec, funext, indefinite, not_dec |
| C109_entropy | PropsUnital.v | classic, forall_dec, funext, not_dec |
| C109_exactly | PropsUnital.v | classic, forall_dec, funext, indefinite, not_dec |
| C110_case | PropsUnital.v | forall_dec, funext |
| C110_refuted | PropsUnital.v | forall_dec, funext, not_dec |
| C110_square_roots_partial | PropsUnital.v | forall_dec, funext, not_dec |
| C111_case | PropsSameCode.v | none |
| C111_disjoint_partial | PropsSameCode.v | forall_dec, funext |
| C111_exact_partial | PropsSameCode.v | forall_dec, funext |
| C111_exactly_partial | PropsSameCode.v | forall_dec, funext |
| C111_guarded_partial | PropsSameCode.v | forall_dec, funext |
| C111_refuted | PropsSameCode.v | forall_dec, funext |
| C111_steane_refuted | PropsSameCode.v | forall_dec, funext |
| C112_case | PropsMeasure.v | none |
| C112_certain_partial | PropsMeasure.v | none |
| C112_coin_partial | PropsMeasure.v | none |
| C112_odd_partial | PropsMeasure.v | none |
| C112_probability_partial | PropsMeasure.v | none |
| C112_projection_partial | PropsMeasure.v | none |
| C112_refuted | PropsMeasure.v | none |
| C112_repeat_partial | PropsMeasure.v | none |
| C113_any_error | PropsMeasure.v | funext |
| C113_case | PropsMeasure.v | forall_dec, funext |
| C114_case | PropsMeasure.v | none |
| C114_certain_partial | PropsMeasure.v | none |
| C114_coin_partial | PropsMeasure.v | none |
| C114_exactly_partial | PropsMeasure.v | forall_dec, funext |
| C114_refuted | PropsMeasure.v | none |
| C114_steane_refuted | PropsMeasure.v | none |
| C115_any_partial | PropsNoCorrect.v | forall_dec, funext, not_dec |
| C115_case | PropsNoCorrect.v | forall_dec, funext, not_dec |
| C115_exact_partial | PropsNoCorrect.v | forall_dec, funext, not_dec |
| C115_orthogonal_partial | PropsNoCorrect.v | forall_dec, funext, not_dec |
| C115_refuted | PropsNoCorrect.v | forall_dec, funext, not_dec |
| C116_case | PropsNoCorrect.v | classic, forall_dec, funext, indefinite, not_dec |
| C116_channel_partial | PropsNoCorrect.v | forall_dec, funext, not_dec |
| C116_orthogonal_partial | PropsNoCorrect.v | forall_dec, funext, not_dec |
| C116_refuted | PropsNoCorrect.v | forall_dec, funext, not_dec |
| C116_value_partial | PropsNoCorrect.v | classic, forall_dec, funext, not_dec |
| C117_case | PropsSparse.v | forall_dec, funext, not_dec |
| C117_case_errors | PropsSparse.v | forall_dec, funext |
| C117_encoder | PropsSparse.v | forall_dec, funext |
| C117_paulis | PropsSparse.v | none |
| C117_shapes | PropsSparse.v | none |
| C118_case | PropsFidelity.v | classic, forall_dec, funext, indefinite, not_dec |
| C118_choi | PropsFidelity.v | classic, forall_dec, funext, not_dec |
| C118_description | PropsFidelity.v | classic, forall_dec, funext, not_dec |
| C118_kinds | PropsFidelity.v | classic, forall_dec, funext, not_dec |
| C118_kraus | PropsFidelity.v | classic, forall_dec, funext, not_dec |
| C119_case | PropsFidelity.v | classic, forall_dec, funext, indefinite, not_dec |
| C119_product | PropsFidelity.v | classic, forall_dec, funext, not_dec |
| C120_below | PropsFidelity.v | classic, forall_dec, funext, not_dec |
| C120_case | PropsFidelity.v | classic, forall_dec, funext, indefinite, not_dec |
| C121_case | PropsFidelity.v | classic, forall_dec, funext, not_dec |
| C121_identity | PropsFidelity.v | classic, forall_dec, funext, not_dec |
| C121_one | PropsFidelity.v | classic, forall_dec, funext, not_dec |
| C122_case | PropsKnown.v | classic, forall_dec, funext, indefinite, not_dec |
| C122_flagged | PropsKnown.v | classic, forall_dec, funext, not_dec |
| C123_attained | PropsKnown.v | classic, forall_dec, funext, not_dec |
| C123_case | PropsKnown.v | classic, forall_dec, funext, indefinite, not_dec |
| C123_most | PropsKnown.v | classic, forall_dec, funext, not_dec |
| C123_value | PropsKnown.v | classic, forall_dec, funext, not_dec |
| C124_attained | PropsKnown.v | classic, forall_dec, funext, not_dec |
| C124_case | PropsKnown.v | classic, forall_dec, funext, indefinite, not_dec |
| C124_most | PropsKnown.v | classic, forall_dec, funext, not_dec |
| C125_attained | PropsKnown.v | classic, forall_dec, funext, not_dec |
| C125_case | PropsKnown.v | classic, forall_dec, funext, indefinite, not_dec |
| C125_diagonal | PropsKnown.v | classic, forall_dec, funext, not_dec |
| C125_most | PropsKnown.v | classic, forall_dec, funext, not_dec |
| C125_useless | PropsKnown.v | classic, forall_dec, funext, not_dec |
| C126_case | PropsKnown2.v | classic, forall_dec, funext, indefinite, not_dec |
| C126_dephrasure | PropsKnown2.v | classic, forall_dec, funext, not_dec |
| C126_paper | PropsKnown2.v | classic, forall_dec, funext, not_dec |
| C127_case | PropsOrth.v | classic, forall_dec, funext, not_dec |
| C127_halves_partial | PropsOrth.v | classic, forall_dec, funext, not_dec |
| C127_refuted | PropsOrth.v | classic, forall_dec, funext, not_dec |
| C128_bit_flip | PropsPureFid.v | classic, forall_dec, funext, not_dec |
| C128_bit_flip_attained | PropsPureFid.v | classic, forall_dec, funext, not_dec |
| C128_case | PropsPureFid.v | classic, forall_dec, funext, indefinite, not_dec |
| C128_damping | PropsPureFid.v | classic, forall_dec, funext, not_dec |
| C128_damping_attained | PropsPureFid.v | classic, forall_dec, funext, not_dec |
| C128_depolarising | PropsPureFid.v | classic, forall_dec, funext, not_dec |
| C128_depolarising_copies | PropsPureFid.v | classic, forall_dec, funext, not_dec |
| C129_bit_flip | PropsPureFid.v | classic, forall_dec, funext, not_dec |
| C129_case | PropsPureFid.v | classic, forall_dec, funext, indefinite, not_dec |
| C129_damping | PropsPureFid.v | classic, forall_dec, funext, not_dec |
| C129_erasure | PropsPureFid.v | classic, forall_dec, funext, not_dec |
| C129_fidelity_bit_flip | PropsPureFid.v | classic, forall_dec, funext, indefinite, not_dec |
| C129_fidelity_damping | PropsPureFid.v | classic, forall_dec, funext, indefinite, not_dec |
| C129_fidelity_depolarising | PropsPureFid.v | classic, forall_dec, funext, indefinite, not_dec |
| C130_attained | PropsDeph.v | classic, forall_dec, funext, not_dec |
| C130_case | PropsDeph.v | classic, forall_dec, funext, indefinite, not_dec |
| C130_most | PropsDeph.v | classic, forall_dec, funext, not_dec |
| C130_reported | PropsDeph.v | classic, forall_dec, funext, not_dec |
| C131_case | PropsDeph.v | classic, forall_dec, funext, indefinite, not_dec |
| C131_reported | PropsDeph.v | classic, forall_dec, funext, not_dec |
| C131_useless | PropsDeph.v | classic, forall_dec, funext, not_dec |
| C132_case | PropsDeph.v | classic, forall_dec, funext, indefinite, not_dec |
| C132_depolarising | PropsDeph.v | classic, forall_dec, funext, not_dec |
| C132_hashing | PropsDeph.v | classic, forall_dec, funext, not_dec |
| C133_bit_flip | PropsChoiKnown.v | classic, forall_dec, funext, not_dec |
| C133_case | PropsChoiKnown.v | classic, epsilon, forall_dec, funext, indefinite, not_dec |
| C133_coherent | PropsChoiKnown.v | classic, forall_dec, funext, not_dec |
| C133_damping | PropsChoiKnown.v | classic, forall_dec, funext, not_dec |
| C133_dephrasure | PropsChoiKnown.v | classic, forall_dec, funext, not_dec |
| C133_dephrasure_mixed | PropsChoiKnown.v | classic, forall_dec, funext, not_dec |
| C133_erasure | PropsChoiKnown.v | classic, forall_dec, funext, not_dec |
| C133_fidelity_bit_flip | PropsChoiKnown.v | classic, forall_dec, funext, not_dec |
| C133_fidelity_damping | PropsChoiKnown.v | classic, forall_dec, funext, not_dec |
| C133_fidelity_depolarising | PropsChoiKnown.v | classic, forall_dec, funext, not_dec |
| C133_value | PropsChoiKnown.v | classic, forall_dec, funext, not_dec |
| C134_case_test | PropsSparseBranch2.v | forall_dec, funext |
| C134_empty_partial | PropsSparseBranch.v | forall_dec, funext, not_dec |
| C134_raises_partial | PropsSparseBranch.v | forall_dec, funext, not_dec |
| C134_refuted | PropsSparseBranch.v | forall_dec, funext, not_dec |
| C134_test_partial | PropsSparseBranch2.v | forall_dec, funext, not_dec |
| C135_case_operators | PropsSparseBranch3.v | classic, forall_dec, funext, not_dec, relational, unique |
| C135_columns_partial | PropsSparseBranch4.v | none |
| C135_never_partial | PropsSparseBranch.v | forall_dec, funext, not_dec |
| C135_objective_refuted | PropsSparseBranch4.v | forall_dec, funext |
| C135_operators_partial | PropsSparseBranch3.v | forall_dec, funext, not_dec |
| C135_raises_partial | PropsSparseBranch.v | forall_dec, funext, not_dec |
| C135_refuted | PropsSparseBranch.v | classic, forall_dec, funext, not_dec, relational, unique |
| C136_case | PropsAttrs.v | none |
| C136_dimension | PropsAttrs.v | none |
| C136_dimension_given | PropsAttrs.v | none |
| C136_iteration | PropsAttrs.v | none |
| C136_logical | PropsAttrs.v | none |
| C136_rows | PropsAttrs.v | none |
| C136_strings | PropsAttrs.v | none |
| C137_case | PropsOverCut.v | classic, forall_dec, funext, indefinite, not_dec |
| C137_entries | PropsOverCut.v | classic, forall_dec, funext, not_dec |
| C137_round_trip | PropsOverCut.v | classic, forall_dec, funext, not_dec |
| C138_accepted | PropsMix.v | forall_dec, funext, not_dec |
| C138_case | PropsMix.v | classic, forall_dec, funext, indefinite, not_dec |
| C138_convex | PropsMix.v | classic, forall_dec, funext, not_dec |
| C139_case | PropsKl.v | classic, forall_dec, funext, indefinite, not_dec |
| C139_code | PropsKl.v | classic, forall_dec, funext, not_dec |
| C139_correctable | PropsKl.v | classic, forall_dec, funext, not_dec |
| C139_mixed | PropsKl.v | classic, forall_dec, funext, not_dec |
| C140_case | PropsRound.v | classic, forall_dec, funext, indefinite, not_dec |
| C140_entropy | PropsRound.v | classic, forall_dec, funext, not_dec |
| C140_logarithms | PropsRound.v | forall_dec, funext |
| C140_value | PropsRound.v | classic, forall_dec, funext, not_dec |
| C141_accepted | PropsSym.v | forall_dec, funext, not_dec |
| C141_case | PropsSym.v | classic, forall_dec, funext, indefinite, not_dec |
| C141_negative | PropsSym.v | classic, forall_dec, funext, not_dec |
| C141_output | PropsSym.v | forall_dec, funext, not_dec |
| C142_accepted | PropsSym.v | forall_dec, funext, not_dec |
| C142_case | PropsSym.v | classic, forall_dec, funext, indefinite, not_dec |
| C142_rotated | PropsSym.v | classic, forall_dec, funext, not_dec |
| C143_case | PropsGenSet.v | forall_dec, funext |
| C143_opposite_partial | PropsGenSet.v | forall_dec, funext |
| C143_order_partial | PropsGenSet.v | forall_dec, funext |
| C143_physical_partial | PropsGenSet.v | forall_dec, funext |
| C143_products_partial | PropsGenSet.v | forall_dec, funext |
| C143_refuted | PropsGenSet.v | forall_dec, funext |
| C144_case | PropsTwirl.v | classic, forall_dec, funext, not_dec |
| C144_each_trial | PropsTwirl.v | classic, forall_dec, funext, not_dec |
| C144_expected | PropsTwirl.v | classic, forall_dec, funext, not_dec |
| C145_agree | PropsTwirl2.v | classic, forall_dec, funext, not_dec |
| C145_case | PropsTwirl2.v | classic, forall_dec, funext, not_dec |
| C146_case | PropsTwirl2.v | forall_dec, funext, not_dec |
| C146_code_partial | PropsTwirl2.v | classic, forall_dec, funext, not_dec |
| C146_refuted | PropsTwirl2.v | classic, forall_dec, funext, not_dec |
| C146_undone_partial | PropsTwirl2.v | classic, forall_dec, funext, not_dec |
| C147_case | PropsTwirl3.v | classic, forall_dec, funext, not_dec |
| C147_error | PropsTwirl3.v | classic, forall_dec, funext, not_dec |
| C147_law | PropsTwirl3.v | classic, forall_dec, funext, not_dec |
| C147_mean | PropsTwirl3.v | classic, forall_dec, funext, not_dec |
| C148_case | PropsTwirl4.v | classic, forall_dec, funext, not_dec |
| C148_error | PropsTwirl4.v | classic, forall_dec, funext, not_dec |
| C148_expected | PropsTwirl4.v | classic, forall_dec, funext, not_dec |
| C149_case | PropsTwirl5.v | forall_dec, funext, not_dec |
| C149_choi_partial | PropsTwirl5.v | classic, forall_dec, funext, not_dec |
| C149_refuted | PropsTwirl5.v | classic, forall_dec, funext, not_dec |
| C150_case | PropsTwirl5.v | classic, forall_dec, funext, not_dec |
| C150_error | PropsTwirl5.v | classic, forall_dec, funext, not_dec |
| C150_expected | PropsTwirl5.v | classic, forall_dec, funext, not_dec |
| C151_case | PropsShared.v | none |
| C151_lowered_partial | PropsShared.v | none |
| C151_own_partial | PropsShared.v | none |
| C151_refuted | PropsShared.v | none |
| C151_shared_partial | PropsShared.v | none |
| C152_case | PropsShared.v | none |
| C152_own_partial | PropsShared.v | none |
| C152_refuted | PropsShared.v | none |
| C152_shared_partial | PropsShared.v | none |
| C153_case | PropsDist.v | none |
| C153_case_returned | PropsDist.v | none |
| C153_distance | PropsDist.v | none |
| C153_returned | PropsDist.v | none |
| C154_case | PropsDist.v | none |
| C154_distance | PropsDist.v | none |
| C155_case | PropsDist2.v | none |
| C155_corrects | PropsDist2.v | funext |
| C155_value | PropsDist3.v | classic, forall_dec, funext, not_dec |
| C156_case | PropsBlock.v | none |
| C156_circuits | PropsBlock.v | none |
| C156_guard | PropsBlock.v | none |
| C156_space | PropsBlock.v | none |
