{
 "claims": [
  {
   "property": "C01",
   "status": "proved",
   "theorems": [
    "C01_string_roundtrip",
    "C01_letters"
   ],
   "note": "C01_letters says which bits each letter sets."
  },
  {
   "property": "C02",
   "status": "proved",
   "theorems": [
    "C02_rows_roundtrip",
    "C02_strings_accepted_iff",
    "C02_strings_errors",
    "C02_letters"
   ],
   "note": ""
  },
  {
   "property": "C03",
   "status": "proved",
   "theorems": [
    "C03_inner_prod_decides_commutation"
   ],
   "note": ""
  },
  {
   "property": "C04",
   "status": "proved",
   "theorems": [
    "C04_inner_prod_symmetric",
    "C04_inner_prod_alternating",
    "C04_inner_prod_additive",
    "C04_commutes_with_generated",
    "C04_inner_prod_value"
   ],
   "note": ""
  },
  {
   "property": "C05",
   "status": "proved",
   "theorems": [
    "C05_product",
    "C05_unitary_square",
    "C05_entries"
   ],
   "note": "C05_entries fixes the matrices themselves."
  },
  {
   "property": "C06",
   "status": "proved",
   "theorems": [
    "C06_rejects",
    "C06_accepted_commute",
    "C06_accepted_rows"
   ],
   "note": "Commutation of the rows as matrices is C03."
  },
  {
   "property": "C07",
   "status": "proved",
   "theorems": [
    "C07_normal_form_same_code",
    "C07_relabel"
   ],
   "note": ""
  },
  {
   "property": "C08",
   "status": "proved",
   "theorems": [
    "C08_normal_form_blocks"
   ],
   "note": ""
  },
  {
   "property": "C09",
   "status": "partial",
   "theorems": [
    "C09_refuted",
    "C09_accepts_iff_partial"
   ],
   "note": "The claim is false of the code: matrix_rank is the rank over the reals. Proved instead: for every valid generator set the constructor succeeds iff the real rank of the X block equals its GF(2) rank, and raises AssertionError otherwise."
  },
  {
   "property": "C10",
   "status": "proved",
   "theorems": [
    "C10_logical_relations"
   ],
   "note": ""
  },
  {
   "property": "C11",
   "status": "partial",
   "theorems": [
    "C11_refuted",
    "C11_relabelled_partial",
    "C11_same_rowspace_partial"
   ],
   "note": "False when the normal form permutes qubits (witness IZ). Proved: true after relabelling the generators by the permutation the elimination used, and true whenever the generators lie in the row space of normal_form."
  },
  {
   "property": "C12",
   "status": "proved",
   "theorems": [
    "C12_normaliser_complete"
   ],
   "note": ""
  },
  {
   "property": "C13",
   "status": "proved",
   "theorems": [
    "C13_encoder_isometry"
   ],
   "note": "eigh is any function meeting eigh_ok (an eigendecomposition of each Hermitian involution); C13_case_contract shows one exists."
  },
  {
   "property": "C14",
   "status": "proved",
   "theorems": [
    "C14_correcting_errors"
   ],
   "note": "Errors are 2^n x 2^n matrices; the modulus threshold 1e-5 is exact real arithmetic."
  },
  {
   "property": "C15",
   "status": "proved",
   "theorems": [
    "C15_encoding"
   ],
   "note": "Over any star ring with 1/sqrt(2) and i; C15_case and constants show the hypotheses met."
  },
  {
   "property": "C16",
   "status": "proved",
   "theorems": [
    "C16_logical_x",
    "C16_logical_z",
    "C16_logical_y"
   ],
   "note": ""
  },
  {
   "property": "C17",
   "status": "proved",
   "theorems": [
    "C17_decoding",
    "C17_decoding_measured"
   ],
   "note": "Both ways of supplying ancillas; also with the data qubits measured."
  },
  {
   "property": "C18",
   "status": "proved",
   "theorems": [
    "C18_syndrome",
    "C18_error_syndrome"
   ],
   "note": "Certainty: the branch of the other outcome is the zero vector."
  },
  {
   "property": "C19",
   "status": "proved",
   "theorems": [
    "C19_no_reset",
    "C19_wrong_size",
    "C18_syndrome"
   ],
   "note": ""
  },
  {
   "property": "C20",
   "status": "partial",
   "theorems": [
    "C20_refuted",
    "C20_rows_partial"
   ],
   "note": "False for strings: always UnboundLocalError. Proved for arrays and lists of bits."
  },
  {
   "property": "C21",
   "status": "partial",
   "theorems": [
    "C21_refuted",
    "C21_repaired_partial",
    "C21_repaired_errors_partial"
   ],
   "note": "False: both methods always raise AttributeError on a constructed code. With the missing methods restored, normalizer returns exactly N(S) and undetectable_errors its strings, not N(S)-S."
  },
  {
   "property": "C22",
   "status": "proved",
   "theorems": [
    "C22_concatenation_rows",
    "C22_rows"
   ],
   "note": "C22_rows says exactly which rows are built. Also proves the rows are independent, so the constructor's verdict is the one of C09."
  },
  {
   "property": "C23",
   "status": "partial",
   "theorems": [
    "C23_refuted"
   ],
   "note": "False: for every such pair the call returns None and raises nothing (assert on a truthy exception object)."
  },
  {
   "property": "C24",
   "status": "partial",
   "theorems": [
    "C24_refuted",
    "C95_needs_partial",
    "C22_rows"
   ],
   "note": "False: five-qubit code concatenated with itself raises AssertionError. The positive part is C22; for l >= 2 see C95, whose C95_needs_partial lists what success requires."
  },
  {
   "property": "C25",
   "status": "partial",
   "theorems": [
    "C25_refuted",
    "C25_returned_partial",
    "C25_no_ancillas_partial"
   ],
   "note": "False: ancillas already in the register are listed twice, and without ancillas the call raises IndexError (every code with k>=1). Proved: the exact list returned in each of the four flag combinations."
  },
  {
   "property": "C26",
   "status": "partial",
   "theorems": [
    "C26_refuted",
    "C26_first_ten_partial",
    "C26_longer_partial"
   ],
   "note": "False for i >= 10. Proved for i < min(k,10); any command of another length than 2 raises AssertionError."
  },
  {
   "property": "C27",
   "status": "partial",
   "theorems": [
    "C27_refuted",
    "C27_exception_refuted",
    "C27_length_refuted",
    "C27_count_enforced_partial",
    "C27_checked_partial",
    "C27_same_constructor_partial"
   ],
   "note": "False: with logical_ops any number of strings and strings shorter or longer than n are accepted; with k = 0 shorter strings are accepted; a longer string after the first is silently cut (C27_length_refuted). Proved: without logical_ops and with k >= 1, acceptance implies n-k strings, the first of n letters and the others of at least n (C27_checked_partial), but a refusal is not always an AssertionError (C27_exception_refuted). C27_same_constructor_partial: the constructor of StringsModel.v, which follows Python slices for every length, equals the one the other theorems use wherever that one is modelled."
  },
  {
   "property": "C28",
   "status": "proved",
   "theorems": [
    "C28_dense_history"
   ],
   "note": "For every history of arguments n >= 1; n = 0 (which raises or corrupts) is outside the property."
  },
  {
   "property": "C29",
   "status": "partial",
   "theorems": [
    "C29_refuted",
    "C29_sparse_history_partial",
    "C29_stale_partial",
    "C29_stale_channel_partial"
   ],
   "note": "False: after a call with n >= 2 the cached conjugates are not reset when n goes back to 1, and channel(rho, 1) raises ValueError. Proved: history independence for every other history, and the exact failure in this one."
  },
  {
   "property": "C30",
   "status": "proved",
   "theorems": [
    "C30_history_independent",
    "C30_sparse"
   ],
   "note": "Any sequence of channel, batched channel, entropy_exchange (both directions), coherent_information, fidelity_two_states and average_entanglement_fidelity calls; optimize calls reach the object only through these. The sparse class too, outside the case of C29."
  },
  {
   "property": "C31",
   "status": "proved",
   "theorems": [
    "C31_channel",
    "C31_wrong_shape"
   ],
   "note": "Dense and sparse, every n, every clean history."
  },
  {
   "property": "C32",
   "status": "proved",
   "theorems": [
    "C32_adjoint",
    "C32_unital",
    "C32_unital_iff"
   ],
   "note": ""
  },
  {
   "property": "C33",
   "status": "proved",
   "theorems": [
    "C33_factorwise"
   ],
   "note": ""
  },
  {
   "property": "C34",
   "status": "proved",
   "theorems": [
    "C34_batch"
   ],
   "note": "Dense class (the sparse class has no batched form)."
  },
  {
   "property": "C35",
   "status": "proved",
   "theorems": [
    "C35_exchange"
   ],
   "note": "One theorem for both classes, so they agree."
  },
  {
   "property": "C36",
   "status": "proved",
   "theorems": [
    "C36_adjoint",
    "C36_unital"
   ],
   "note": ""
  },
  {
   "property": "C37",
   "status": "partial",
   "theorems": [
    "C37_refuted",
    "C37_halves_partial",
    "C37_returned_partial"
   ],
   "note": "False, also for the documented example of three operators and [1]: rows between the indices are lost. Proved: the blocks are right for one index in the middle; the exact list returned for any indices."
  },
  {
   "property": "C38",
   "status": "proved",
   "theorems": [
    "C38_composition",
    "C38_accepted",
    "C38_mismatch",
    "C38_history"
   ],
   "note": ""
  },
  {
   "property": "C39",
   "status": "partial",
   "theorems": [
    "C39_refuted",
    "C39_kraus_add_partial",
    "C39_class_partial"
   ],
   "note": "False: AssertionError for an encoder from one to two qubits after a one-qubit channel. Proved: the exact condition under which + of Kraus objects succeeds, and its result."
  },
  {
   "property": "C40",
   "status": "proved",
   "theorems": [
    "C40_product",
    "C40_associative",
    "C40_operators",
    "C41_mul"
   ],
   "note": "Trace preservation is in C41_mul."
  },
  {
   "property": "C41",
   "status": "partial",
   "theorems": [
    "C41_refuted",
    "C41_mul"
   ],
   "note": "False for channels on several qubits: the sizes are taken from dim_in, dim_out instead of their powers. Proved: the exact condition for success."
  },
  {
   "property": "C42",
   "status": "proved",
   "theorems": [
    "C42_check",
    "C42_constructor",
    "C42_exact"
   ],
   "note": ""
  },
  {
   "property": "C43",
   "status": "partial",
   "theorems": [
    "C43_refuted",
    "C43_dense_partial",
    "C43_sparse_partial",
    "C43_diagonal_partial",
    "C43_object_partial"
   ],
   "note": "False: the dense class adds all entries of K_i rho and returns 4 for the identity channel and |+><+|, the sparse one returns 1/2. Proved: what both return, and the documented value when every K_i rho is diagonal."
  },
  {
   "property": "C44",
   "status": "proved",
   "theorems": [
    "C44_choi_fidelity",
    "C44_range",
    "C44_identity"
   ],
   "note": "Also: between 0 and 1 for trace preserving lists and states, 1 for the identity channel."
  },
  {
   "property": "C45",
   "status": "proved",
   "theorems": [
    "C45_choi_is_kraus",
    "C45_objects"
   ],
   "note": "C45_objects compares the two kinds of AnalyticQChan object after any history."
  },
  {
   "property": "C46",
   "status": "proved",
   "theorems": [
    "C46_shapes",
    "C46_reproduces",
    "C46_close",
    "C46_same_channel",
    "C46_positive"
   ],
   "note": "C46_close drops the eigenvalue condition: every entry within 1e-8. eigh is any function meeting its contract, shown satisfiable by the spectral theorem (Spectral.v, SpectralExists.v)."
  },
  {
   "property": "C47",
   "status": "proved",
   "theorems": [
    "C47_common_factor",
    "C47_kraus_value",
    "C47_entropy_unique",
    "C47_coherent_information"
   ],
   "note": "The last theorem says that both routes return the same number, for any eigvalsh and sqrtm meeting their contracts (both shown satisfiable)."
  },
  {
   "property": "C48",
   "status": "partial",
   "theorems": [
    "C48_refuted",
    "C48_ignored_partial",
    "C48_hermitian_partial"
   ],
   "note": "False: the flag is ignored for Choi channels, so the adjoint of the reset channel is wrong. Proved: exactly what is returned; right when every Kraus operator is Hermitian."
  },
  {
   "property": "C49",
   "status": "partial",
   "theorems": [
    "C49_refuted",
    "C49_raises_partial",
    "C49_attribute_partial"
   ],
   "note": "False: always raises (the Kraus objects call the attribute numb_kraus). Proved: it raises for every channel; the attribute spelt numb_kraus holds the count after any history."
  },
  {
   "property": "C50",
   "status": "proved",
   "theorems": [
    "C50_vector_round_trip",
    "C50_matrix_round_trip",
    "C50_layout",
    "C50_errors"
   ],
   "note": "C50_layout also fixes the order of the variables."
  },
  {
   "property": "C51",
   "status": "proved",
   "theorems": [
    "C51_density",
    "C51_density_no_rank",
    "C51_errors"
   ],
   "note": "The exact factor read from the vector is part of the statement (normalises, matrix_of_pairs)."
  },
  {
   "property": "C52",
   "status": "proved",
   "theorems": [
    "C52_round_trip"
   ],
   "note": "eigh is any function returning increasing eigenvalues and a unitary of eigenvectors; such a function is shown to exist."
  },
  {
   "property": "C53",
   "status": "proved",
   "theorems": [
    "C53_counts",
    "C53_density",
    "C53_errors"
   ],
   "note": "The exact factor read from the vector is part of the statement (lower_matrix)."
  },
  {
   "property": "C54",
   "status": "partial",
   "theorems": [
    "C54_refuted",
    "C54_small_partial",
    "C54_diagonal_partial",
    "C54_exactly_partial",
    "C54_low_rank_partial"
   ],
   "note": "False for every nsize >= 3: vec_from_rho lists all real parts and then all imaginary parts, rho_from_vec reads them in pairs. Proved: it inverts for nsize <= 2 and for diagonal states; for every size, the exact vector and state returned and the exact condition under which the state comes back; with rank < nsize the vector is always rejected."
  },
  {
   "property": "C55",
   "status": "proved",
   "theorems": [
    "C55_steady",
    "C55_result",
    "C55_draws",
    "C55_returns"
   ],
   "note": "The objectives used by the library satisfy the hypothesis that calling them leaves the channel object unchanged (C55_steady)."
  },
  {
   "property": "C56",
   "status": "proved",
   "theorems": [
    "C56_accepts"
   ],
   "note": ""
  },
  {
   "property": "C57",
   "status": "proved",
   "theorems": [
    "C57_coherent",
    "C57_fidelity"
   ],
   "note": "scipy is an argument with the contract that it reports fun = f(x) at the x it reports. The channel object is also shown to end set to n uses."
  },
  {
   "property": "C58",
   "status": "partial",
   "theorems": [
    "C58_refuted",
    "C58_last_partial",
    "C58_first_partial",
    "C58_rule_partial",
    "C58_one_of_the_runs_partial"
   ],
   "note": "False: the comparison uses -fun but stores fun. Proved: which run is chosen when all coherent informations are positive (the last) and when the objective is non-negative (the first), the rule by which it is chosen for values of either sign, and that a value returned always belongs to one of the runs."
  },
  {
   "property": "C59",
   "status": "partial",
   "theorems": [
    "C59_refuted",
    "C59_two_samples_partial",
    "C59_fidelity_partial"
   ],
   "note": "False: with use_pool=0 optimize_coherent with slsqp raises for every input. For the fidelity, two samples raise TypeError, and with one sample optimal_val is scipy's result object."
  },
  {
   "property": "C60",
   "status": "partial",
   "theorems": [
    "C60_refuted",
    "C60_unknown_partial",
    "C60_object_partial"
   ],
   "note": "False for classes, as in the README's example: TypeError. Unknown names raise TypeError; objects of such a class are accepted and behave like the names."
  },
  {
   "property": "C61",
   "status": "proved",
   "theorems": [
    "C61_inverse",
    "C61_returns",
    "C61_unitary",
    "C61_phases",
    "C61_every_choice",
    "C61_bad_epsilon"
   ],
   "note": ""
  },
  {
   "property": "C62",
   "status": "proved",
   "theorems": [
    "C62_range",
    "C62_zero",
    "C62_negative",
    "C62_identity",
    "C62_returns"
   ],
   "note": ""
  },
  {
   "property": "C63",
   "status": "partial",
   "theorems": [
    "C63_refuted",
    "C63_simulator_partial",
    "C63_each_trial_partial",
    "C63_superposition_partial",
    "C63_real_partial",
    "C63_constructed_partial"
   ],
   "note": "True on simulators (from a basis state, or with cheat); false on real devices, where nothing is done: two trials of a Z gate then estimate 1/2, a simulator 0."
  },
  {
   "property": "C64",
   "status": "partial",
   "theorems": [
    "C64_refuted",
    "C64_type_error_partial",
    "C64_optimizer_partial"
   ],
   "note": "False: the composed channel takes three arguments and is called with two, so the objective raises TypeError at every parameter and the method never returns."
  },
  {
   "property": "C65",
   "status": "proved",
   "theorems": [
    "C65_operators",
    "C65_channel",
    "C65_value"
   ],
   "note": "For k = 1; other k never get as far, see C66. sparse=False."
  },
  {
   "property": "C66",
   "status": "partial",
   "theorems": [
    "C66_refuted",
    "C66_one_logical_qubit_partial",
    "C66_assertion_partial"
   ],
   "note": "False: the call returns only for k = 1; error operators on k other than 1 qubits raise AssertionError."
  },
  {
   "property": "C67",
   "status": "partial",
   "theorems": [
    "C67_refuted",
    "C67_programme_partial",
    "C67_exact_partial",
    "C67_real_partial",
    "C67_range_partial"
   ],
   "note": "False for complex operators (Y: value -1 at the perfect decoder); exact formula for all operators, the claim for real ones. Dense branch."
  },
  {
   "property": "C68",
   "status": "partial",
   "theorems": [
    "C68_refuted",
    "C68_never_partial",
    "C68_name_error_partial"
   ],
   "note": "False: the function uses an undefined name and never returns."
  },
  {
   "property": "C69",
   "status": "proved",
   "theorems": [
    "C69_nonnegative",
    "C69_at_most",
    "C69_density",
    "C69_pure",
    "C69_mixed"
   ],
   "note": "On lists of eigenvalues and on density matrices through any eigvalsh meeting its contract."
  },
  {
   "property": "C70",
   "status": "proved",
   "theorems": [
    "C70_pure",
    "C70_states",
    "C70_root_unique",
    "C70_fixed"
   ],
   "note": "Kraus channels, dense and sparse, every n and history. C70_states extends the range 0..1 to all states; the positive root is proved unique."
  },
  {
   "property": "C71",
   "status": "proved",
   "theorems": [
    "C71_over",
    "C71_cholesky",
    "C71_normal"
   ],
   "note": ""
  },
  {
   "property": "C72",
   "status": "proved",
   "theorems": [
    "C72_coherent",
    "C72_fidelity"
   ],
   "note": ""
  },
  {
   "property": "C73",
   "status": "partial",
   "theorems": [
    "C73_refuted"
   ],
   "note": "False: always an error, AssertionError once the channel can be updated to n."
  },
  {
   "property": "C74",
   "status": "partial",
   "theorems": [
    "C74_keeps_best_partial",
    "C74_not_lipschitz_partial",
    "C74_refuted"
   ],
   "note": "Proved under the hypothesis that the objective is 1-Lipschitz in the entrywise distance; the README's claim is false for the coherent information of the identity channel on two qubits, and there the sampler drops a draw that is the global maximum."
  },
  {
   "property": "C75",
   "status": "proved",
   "theorems": [
    "C75_trial",
    "C75_more",
    "C75_error_code",
    "C75_channel"
   ],
   "note": "For channels without measurements that keep norms."
  },
  {
   "property": "C76",
   "status": "partial",
   "theorems": [
    "C76_refuted",
    "C76_never_partial",
    "C76_value_error_partial"
   ],
   "note": "False: the fidelity compares a state of k = 1 qubit with one of n, so for n >= 2 the call never returns."
  },
  {
   "property": "C77",
   "status": "partial",
   "theorems": [
    "C77_refuted",
    "C77_result_partial",
    "C77_never_partial",
    "C77_bound_partial",
    "C77_documented_partial",
    "C77_documented_only_partial",
    "C77_documented_value_partial"
   ],
   "note": "False: the numbers of qubits are passed in the wrong order, so the result is the Choi matrix of a map from k to n qubits; for the repetition code with bit flips the value is 0.26 although the majority decoder has fidelity 0.70. In the documented order the constraint is right and the value too small by (D/N)^2."
  },
  {
   "property": "C78",
   "status": "proved",
   "theorems": [
    "C78_options"
   ],
   "note": ""
  },
  {
   "property": "C79",
   "status": "partial",
   "theorems": [
    "C79_refuted",
    "C79_value_error_partial",
    "C79_assertion_partial"
   ],
   "note": "False: for k >= 2, errors on single qubits raise ValueError and errors on k qubits AssertionError."
  },
  {
   "property": "C80",
   "status": "proved",
   "theorems": [
    "C80_syndromes",
    "C80_correction"
   ],
   "note": ""
  },
  {
   "property": "C81",
   "status": "proved",
   "theorems": [
    "C81_coherent",
    "C81_fidelity"
   ],
   "note": ""
  },
  {
   "property": "C82",
   "status": "proved",
   "theorems": [
    "C82_rejected",
    "C82_too_few",
    "C82_unknown",
    "C82_returns",
    "C82_too_few_fidelity",
    "C82_unknown_fidelity",
    "C82_returns_fidelity"
   ],
   "note": ""
  },
  {
   "property": "C83",
   "status": "proved",
   "theorems": [
    "C83_callback"
   ],
   "note": ""
  },
  {
   "property": "C84",
   "status": "proved",
   "theorems": [
    "C84_bounds",
    "C84_pure",
    "C84_isometry",
    "C84_choi"
   ],
   "note": ""
  },
  {
   "property": "C85",
   "status": "proved",
   "theorems": [
    "C85_channel",
    "C85_coherent_information"
   ],
   "note": ""
  },
  {
   "property": "C86",
   "status": "proved",
   "theorems": [
    "C86_product"
   ],
   "note": ""
  },
  {
   "property": "C87",
   "status": "proved",
   "theorems": [
    "C87_accessors",
    "C87_qubit",
    "C87_choi"
   ],
   "note": ""
  },
  {
   "property": "C88",
   "status": "partial",
   "theorems": [
    "C88_refuted",
    "C88_product_partial",
    "C88_refused_partial",
    "C88_tensor_partial"
   ],
   "note": "False for objects on several qubits with one operator shape per qubit: parallel_concatenate is handed the dimension of one particle, so the constructor's check fails (C88_refuted: two-qubit identity). Proved: the exact condition under which the product exists and what it is, the refusal of mixed classes, and that the product of the lists is the tensor product channel."
  },
  {
   "property": "C89",
   "status": "proved",
   "theorems": [
    "C89_accepts",
    "C89_rejects",
    "C89_wrong_size",
    "C89_positive",
    "C89_density",
    "C89_once",
    "C89_unchanged"
   ],
   "note": "istp and iscp of qutip are contracts at tolerance zero."
  },
  {
   "property": "C90",
   "status": "proved",
   "theorems": [
    "C90_standard",
    "C90_over",
    "C90_cholesky",
    "C90_full_rank"
   ],
   "note": ""
  },
  {
   "property": "C91",
   "status": "partial",
   "theorems": [
    "C91_refuted",
    "C91_more_out_partial",
    "C91_fewer_out_partial",
    "C91_between_partial"
   ],
   "note": "False. With more output than input particles every call raises IndexError; with num_in >= 2*num_out the answer is the transposed state of some input particles, whatever the channel (C91_refuted: discarding the second of two qubits). Proved: exactly that for both cases, and for num_out <= num_in <= 2*num_out the exact matrix returned (C91_between_partial), which is the channel's output only for num_in = num_out. ptrace is read on the flat list of dimensions; a qutip version that cannot handle the ragged nested list raises instead, which violates the property as well."
  },
  {
   "property": "C92",
   "status": "partial",
   "theorems": [
    "C92_refuted",
    "C92_accepted_partial",
    "C92_dimension_partial",
    "C92_iff_independent_partial"
   ],
   "note": "False: the constructor accepts any commuting rows of the right number, so ZZI, ZZI is a [[3,1]] code with four encoder columns and XZII, ZXII, YYII one with none (C92_refuted). Proved: what is accepted, the exact number of columns in terms of the rank and of whether minus the identity is a product of generators, and that the count is 2^k exactly for independent generators. The dimension theorems assume generators with an even number of Ys; C93 treats the others."
  },
  {
   "property": "C93",
   "status": "partial",
   "theorems": [
    "C93_refuted",
    "C93_odd_partial",
    "C93_even_partial",
    "C93_single_partial"
   ],
   "note": "False: the code represents Y by XZ, which is not Hermitian, and numpy's eigh reads the lower triangle of such a matrix as that of another one. For the generator YI the encoder spans the +1 eigenspace of XI (C93_refuted). Proved: with an odd number of Ys no non-zero vector is fixed by the matrix, the encoder of a code with an odd first generator is fixed by the string with its first X or Y exchanged; with even numbers the property holds; with one odd generator the exact span is given. Odd generators after an even first one are only covered by the part of C93_odd_partial saying that nothing is fixed."
  },
  {
   "property": "C94",
   "status": "partial",
   "theorems": [
    "C94_refuted",
    "C94_decoding_refuted",
    "C94_accepted_partial",
    "C94_encoding_partial",
    "C94_codespace_partial",
    "C94_logical_partial",
    "C94_decoding_partial"
   ],
   "note": "False: for XXXX, ZZZZ with the computed logical X operators multiplied by the generator XXXX, an equally valid pair, the message 10 is encoded outside the code space (C94_refuted), because the encoding circuit reads only some columns of the supplied operators. For ZZ with the roles of X and Z exchanged, decoding leaves the ancilla at 0 for a state whose logical Z is -1 (C94_decoding_refuted), because only the Z half of the supplied Z operators is used. Proved: supplied operators are accepted exactly when they have 2n columns (C94_accepted_partial); the encoded states are orthonormal and each generator fixes or negates them, with the sign given by the bits in which supplied and computed operators differ (C94_encoding_partial), so the exact condition for being in the code space (C94_codespace_partial); logical circuits apply the supplied operators (C94_logical_partial); decoding is right for every family of states on which the Z half alone has the right eigenvalues (C94_decoding_partial). The encoding theorems are about the generators of the normal form, whose qubits may be relabelled, see C11."
  },
  {
   "property": "C95",
   "status": "partial",
   "theorems": [
    "C95_refuted",
    "C95_needs_partial",
    "C95_several_partial",
    "C95_concatenation_valid_partial"
   ],
   "note": "False. For XIXX and the [4,2] code the call returns a code that does not contain the encoded generator, because an identity letter repeats the logical operator of the letter before it (C95_refuted). A call can only succeed if n = m, l^2 <= n and the first letter is not the identity (C95_needs_partial). Proved: for n = m = l^2 and outer generators without identity letters the rows are the right ones, and generators of an [[ln,k]] code when the inner logical operators are valid (C95_several_partial). C95_concatenation_valid_partial is the textbook fact for any placement of the outer qubits."
  },
  {
   "property": "C96",
   "status": "partial",
   "theorems": [
    "C96_refuted",
    "C96_encoding_partial",
    "C96_prepares_partial",
    "C96_logical_partial",
    "C96_apply_partial",
    "C96_decoding_own_partial",
    "C96_decoding_added_partial",
    "C96_syndrome_all_partial",
    "C96_syndrome_last_partial"
   ],
   "note": "False for single_syndrome_measurement, which counts the qubits of the engine: with one further qubit it measures a data qubit and reports the wrong bit, with more it raises TypeError (C96_refuted, C96_syndrome_last_partial). Proved for the other four methods in full generality, and for the syndrome measurement when the register holds every qubit of the engine, in any order."
  },
  {
   "property": "C97",
   "status": "partial",
   "theorems": [
    "C97_refuted",
    "C97_encoding_partial",
    "C97_logical_partial",
    "C97_apply_partial",
    "C97_decoding_partial",
    "C97_syndrome_partial",
    "C97_empty_register_partial"
   ],
   "note": "False of all five methods (C97_refuted). Proved: which inputs are refused with nothing sent, which are accepted, and exactly what has been sent when encoding_circuit, logical_circuit, apply_stabilizer_circuit and single_syndrome_measurement raise; decoding_circuit succeeds on registers of the right size."
  },
  {
   "property": "C98",
   "status": "partial",
   "theorems": [
    "C98_refuted",
    "C98_lowered_partial",
    "C98_raised_partial",
    "C98_current_partial",
    "C98_length_partial",
    "C98_conj_partial"
   ],
   "note": "False: a reset channel whose operators are replaced by the identity goes on resetting, for n = 2 it resets one of two qubits, and its length stays 2 (C98_refuted); assigning nth_kraus_ops_conj recurses until Python gives up (C98_conj_partial). Proved for any history: once n has gone down since the assignment the object is the n-fold channel of the operators assigned; until then they only supply the factors added since, in front of the operators there were; assigning nth_kraus_ops of a dense object changes channel at once and the entropy exchange at the next update. For sparse objects the first holds for n >= 2 only (C29 is about n = 1)."
  },
  {
   "property": "C99",
   "status": "proved",
   "theorems": [
    "C99_processing",
    "C99_sum",
    "C99_undone"
   ],
   "note": "From the monotonicity of the relative entropy under channels, proved here (Relative.v) without assumptions beyond the standard library: its derivative along sigma + t rho is a maximum of a form that channels can only lower. eigvalsh as in C84; dense objects with orthogonality indices excluded."
  },
  {
   "property": "C100",
   "status": "proved",
   "theorems": [
    "C100_negative",
    "C100_positive"
   ],
   "note": "The same inequality applied to the channel to the environment, whose entropies are those of the channel swapped."
  },
  {
   "property": "C101",
   "status": "proved",
   "theorems": [
    "C101_apart",
    "C101_one_use"
   ],
   "note": "The mutual information between the uses does not grow from output to environment (relative entropy of a state to the product of its marginals), then induction over n. Same exclusions as C99. Phase damping is the example."
  },
  {
   "property": "C102",
   "status": "proved",
   "theorems": [
    "C102_mixture"
   ],
   "note": "The relative entropies of the states to their mixture do not grow from output to environment."
  },
  {
   "property": "C103",
   "status": "partial",
   "theorems": [
    "C103_refuted",
    "C103_branches_partial",
    "C103_eigenvalue_partial",
    "C103_opposite_partial",
    "C103_coin_partial"
   ],
   "note": "False: the circuit applies -iY for the letter Y. With y letters Y the reported bit is e for y = 0 mod 4, the opposite for y = 2 mod 4 (YY on |00>-|11>), and a fair coin for odd y. C103_branches_partial gives the state after each outcome for every v."
  },
  {
   "property": "C104",
   "status": "partial",
   "theorems": [
    "C104_refuted",
    "C104_even_partial",
    "C104_odd_partial"
   ],
   "note": "False: for a row with y = 2 mod 4 Ys the eigenvalue is -1 (code YY), and for a string with an odd number of Ys the encoded states satisfy <v|S|v> = 0 (code YI)."
  },
  {
   "property": "C105",
   "status": "partial",
   "theorems": [
    "C105_refuted",
    "C105_up_to_sign_partial",
    "C105_sign_partial",
    "C105_fixed_partial",
    "C105_css_partial"
   ],
   "note": "False: for XXZ, ZXX, which contain no Y, the normal form is YIY, ZXX, every encoded state is a -1 eigenvector of XXZ and measuring XXZ reports 1. True up to a sign per generator that is the same for all messages; the sign is given for every row of the group; + when z_r . x_s is even for all generators, in particular for codes whose generators have only Xs or only Zs. Matrices are the library's."
  },
  {
   "property": "C106",
   "status": "partial",
   "theorems": [
    "C106_refuted",
    "C106_loop_partial",
    "C106_orthogonal_partial"
   ],
   "note": "False for every code and every detected error: the row that reported the error has the corrupted state as an eigenvector, so applying it changes nothing but a phase. C106_loop_partial gives the state after the loop for every outcome list; C106_orthogonal_partial: after a reported error it is orthogonal to the encoded state. C106_refuted has the README's code and error, which is not even detected, and a bit-flip code, which detects it."
  },
  {
   "property": "C107",
   "status": "proved",
   "theorems": [
    "C107_workflow",
    "C107_measured"
   ],
   "note": "Textbook matrices on the bare qubits; the phase is -i for every Y. The README's own program supplies no ancillas and raises: C25_no_ancillas_partial."
  },
  {
   "property": "C108",
   "status": "proved",
   "theorems": [
    "C108_identity"
   ],
   "note": "Holds without trace preservation."
  },
  {
   "property": "C109",
   "status": "proved",
   "theorems": [
    "C109_entropy",
    "C109_exactly"
   ],
   "note": "C109_entropy for entropy() as coded, allowing D times 3.4e-9 for eigenvalues below its cut-off; C109_exactly for the von Neumann entropies, both directions, at any one n."
  },
  {
   "property": "C110",
   "status": "partial",
   "theorems": [
    "C110_refuted",
    "C110_square_roots_partial"
   ],
   "note": "False: whenever 2 p (1-p) >= 1e-5, so for the README's p = 0.25, the constructor raises AssertionError, because the operators are scaled by p instead of its square root. C110_square_roots_partial: with the square roots the object is built, one use gives (1-p) rho + p X rho X, and n uses fix the identity."
  },
  {
   "property": "C111",
   "status": "partial",
   "theorems": [
    "C111_refuted",
    "C111_steane_refuted",
    "C111_exact_partial",
    "C111_exactly_partial",
    "C111_guarded_partial",
    "C111_disjoint_partial"
   ],
   "note": "False: for the five-qubit code every encoded state is orthogonal to every column (signs), and for the Steane code the two spaces share only the zero vector (relabelled qubits). C111_exact_partial: always equal after one Pauli operator and the relabelling of C07. C111_exactly_partial: equal exactly when each given generator fixes the encoded states. C111_guarded_partial: a condition on the generators under which they are equal."
  },
  {
   "property": "C112",
   "status": "partial",
   "theorems": [
    "C112_refuted",
    "C112_projection_partial",
    "C112_certain_partial",
    "C112_probability_partial",
    "C112_repeat_partial",
    "C112_coin_partial",
    "C112_odd_partial"
   ],
   "note": "True for every generator with an even number of Ys. False for an odd number: C112_odd_partial shows both outcomes have probability 1/2 on every state whatever was measured before, C112_refuted shows it for YI."
  },
  {
   "property": "C113",
   "status": "proved",
   "theorems": [
    "C113_any_error"
   ],
   "note": ""
  },
  {
   "property": "C114",
   "status": "partial",
   "theorems": [
    "C114_refuted",
    "C114_steane_refuted",
    "C114_certain_partial",
    "C114_coin_partial",
    "C114_exactly_partial"
   ],
   "note": "False: the third generator of the five-qubit code reports 1 with certainty on every encoded state, and the first of the Steane code is a fair coin. C114_certain_partial and C114_coin_partial give the outcome for generators spanned by normal_form and for those that anticommute with one of its rows; C114_exactly_partial: all report 0 exactly when C111 holds of the code. The rows of normal_form themselves always report 0 (C80)."
  },
  {
   "property": "C115",
   "status": "partial",
   "theorems": [
    "C115_refuted",
    "C115_exact_partial",
    "C115_orthogonal_partial",
    "C115_any_partial"
   ],
   "note": "False: the operator multiplies the error by the generator that detects it, which fixes encoded states, so nothing is undone. C115_exact_partial: on encoded states every returned operator is the error up to a sign, for any multiples of Paulis; C115_orthogonal_partial: a detected error stays orthogonal to the code space; C115_any_partial: arbitrary errors, up to the tolerance of the comparison; C115_refuted: one bit flip and the five-qubit code."
  },
  {
   "property": "C116",
   "status": "partial",
   "theorems": [
    "C116_refuted",
    "C116_channel_partial",
    "C116_orthogonal_partial",
    "C116_value_partial"
   ],
   "note": "False for the reason given at C115. For noise whose operators are multiples of Paulis C116_channel_partial shows that the total channel is encoding followed by uncorrected noise and C116_value_partial that the value returned is the coherent information of that; C116_refuted: bit flips and the five-qubit code. Noise with other operators is covered only by C65 and C115_any_partial."
  },
  {
   "property": "C117",
   "status": "proved",
   "theorems": [
    "C117_paulis",
    "C117_shapes",
    "C117_encoder"
   ],
   "note": "scipy's csr_matrix and kron are modelled, as lists of stored entries per row. The sparse branch of kraus_operators_correcting_errors is in C134."
  },
  {
   "property": "C118",
   "status": "proved",
   "theorems": [
    "C118_kraus",
    "C118_choi",
    "C118_description",
    "C118_kinds"
   ],
   "note": "For any sqrtm that returns the positive root of positive matrices. As in C30, a sparse Kraus object may not be asked for n = 1 after a larger n."
  },
  {
   "property": "C119",
   "status": "proved",
   "theorems": [
    "C119_product"
   ],
   "note": "For any sqrtm that returns the positive root of positive matrices."
  },
  {
   "property": "C120",
   "status": "proved",
   "theorems": [
    "C120_below"
   ],
   "note": "For objects built from a Choi matrix; for Kraus objects average_entanglement_fidelity returns another number, see C43."
  },
  {
   "property": "C121",
   "status": "proved",
   "theorems": [
    "C121_one",
    "C121_identity"
   ],
   "note": "For objects built from a Choi matrix, as in C120."
  },
  {
   "property": "C122",
   "status": "proved",
   "theorems": [
    "C122_flagged"
   ],
   "note": "The error is at most 3.4e-9 times the number of output dimensions and operators of A and B. orthogonal_kraus is left out, as in C32."
  },
  {
   "property": "C123",
   "status": "proved",
   "theorems": [
    "C123_value",
    "C123_most",
    "C123_attained"
   ],
   "note": "Up to 3.4e-9 (D+1)^n."
  },
  {
   "property": "C124",
   "status": "proved",
   "theorems": [
    "C124_most",
    "C124_attained"
   ],
   "note": "Up to 3.4e-9 * 2^n."
  },
  {
   "property": "C125",
   "status": "proved",
   "theorems": [
    "C125_attained",
    "C125_most",
    "C125_useless",
    "C125_diagonal"
   ],
   "note": "Up to 3.4e-9 * 2^n."
  },
  {
   "property": "C126",
   "status": "proved",
   "theorems": [
    "C126_dephrasure",
    "C126_paper"
   ],
   "note": "Up to 3.4e-9 * 4^n. The second theorem needs 0 < p < 1 and 0 < x < 1, where the logarithms of the formula exist. orthogonal_kraus is left out, as in C32."
  },
  {
   "property": "C127",
   "status": "partial",
   "theorems": [
    "C127_refuted",
    "C127_halves_partial"
   ],
   "note": "False: the last block starts at the wrong position (C37). For the erasure channel with q = 1/2 and orthogonal_krauss=[1], as in the docstring of entropy_exchange, the maximally mixed qubit gets 1/2 instead of 0. Proved when b splits the operators into halves: then both objects return exactly the same number."
  },
  {
   "property": "C128",
   "status": "proved",
   "theorems": [
    "C128_bit_flip",
    "C128_bit_flip_attained",
    "C128_damping",
    "C128_damping_attained",
    "C128_depolarising",
    "C128_depolarising_copies"
   ],
   "note": "Rests on the contract of scipy.linalg.sqrtm, as C70."
  },
  {
   "property": "C129",
   "status": "proved",
   "theorems": [
    "C129_erasure",
    "C129_bit_flip",
    "C129_damping",
    "C129_fidelity_bit_flip",
    "C129_fidelity_damping",
    "C129_fidelity_depolarising"
   ],
   "note": "For the parametrisations named 'overparam' and 'cholesky'. Up to the cut-off of small eigenvalues for the coherent information. Without a pool SLSQP leaves scipy's result object in the dictionary instead of a number (C59), so that case is left out for the fidelity."
  },
  {
   "property": "C130",
   "status": "proved",
   "theorems": [
    "C130_most",
    "C130_attained",
    "C130_reported"
   ],
   "note": "Up to the cut-off of small eigenvalues, as C122. The bound on the parameters is copied from the test-suite; C130_attained holds for every p and q."
  },
  {
   "property": "C131",
   "status": "proved",
   "theorems": [
    "C131_useless",
    "C131_reported"
   ],
   "note": "Up to the cut-off of small eigenvalues, as C122."
  },
  {
   "property": "C132",
   "status": "proved",
   "theorems": [
    "C132_hashing",
    "C132_depolarising"
   ],
   "note": "Up to the cut-off of small eigenvalues, as C122."
  },
  {
   "property": "C133",
   "status": "proved",
   "theorems": [
    "C133_coherent",
    "C133_value",
    "C133_erasure",
    "C133_bit_flip",
    "C133_damping",
    "C133_dephrasure",
    "C133_dephrasure_mixed",
    "C133_fidelity_bit_flip",
    "C133_fidelity_damping",
    "C133_fidelity_depolarising"
   ],
   "note": "Up to the cut-off of small eigenvalues. istp and iscp of qutip enter through their contract, as in C89."
  },
  {
   "property": "C134",
   "status": "partial",
   "theorems": [
    "C134_raises_partial",
    "C134_empty_partial",
    "C134_refuted",
    "C134_test_partial"
   ],
   "note": "False of the code: sparse=True with csr matrices always raises ValueError. What numpy and scipy do with np.all and bool of a sparse matrix is part of the model; other kinds of sparse arrays are not modelled. C134_test_partial: with the entrywise outcome in place of that test (not what the code computes) the branch returns the dense operators for errors of the size of the code, so the test is the only defect."
  },
  {
   "property": "C135",
   "status": "partial",
   "theorems": [
    "C135_never_partial",
    "C135_raises_partial",
    "C135_refuted",
    "C135_operators_partial",
    "C135_columns_partial",
    "C135_objective_refuted"
   ],
   "note": "False of the code: the sparse branch raises ValueError. The matrix product taken by np.outer for two sparse matrices is part of the model. C135_operators_partial: up to forming the objective both calls have the same operators, so it goes wrong in the objective, in two ways: np.outer multiplies sparse columns as matrices, and the columns list the entries without the transpose of the dense branch (C135_columns_partial gives both layouts, C135_objective_refuted a matrix where the outer products differ)."
  },
  {
   "property": "C136",
   "status": "proved",
   "theorems": [
    "C136_rows",
    "C136_strings",
    "C136_logical",
    "C136_iteration",
    "C136_dimension",
    "C136_dimension_given"
   ],
   "note": "C136_dimension_given shows that with logical_ops the number of strings goes unchecked (C27), so that dim_code_space differs from k."
  },
  {
   "property": "C137",
   "status": "proved",
   "theorems": [
    "C137_round_trip",
    "C137_entries"
   ],
   "note": "Completes C52, which is exact but needs the eigenvalues to be 0 or at least 1e-5."
  },
  {
   "property": "C138",
   "status": "proved",
   "theorems": [
    "C138_accepted",
    "C138_convex"
   ],
   "note": ""
  },
  {
   "property": "C139",
   "status": "proved",
   "theorems": [
    "C139_correctable",
    "C139_code",
    "C139_mixed"
   ],
   "note": "Codes whose generators have an odd number of Ys are excluded because encode_krauss_operators is wrong for them (C93)."
  },
  {
   "property": "C140",
   "status": "proved",
   "theorems": [
    "C140_logarithms",
    "C140_entropy",
    "C140_value"
   ],
   "note": "The other theorems on entropies assume exact eigenvalues; this one says what rounding can change."
  },
  {
   "property": "C141",
   "status": "proved",
   "theorems": [
    "C141_accepted",
    "C141_output",
    "C141_negative"
   ],
   "note": ""
  },
  {
   "property": "C142",
   "status": "proved",
   "theorems": [
    "C142_accepted",
    "C142_rotated"
   ],
   "note": "Rotations of the output are covered by C99 (processing that can be undone)."
  },
  {
   "property": "C143",
   "status": "partial",
   "theorems": [
    "C143_products_partial",
    "C143_order_partial",
    "C143_physical_partial",
    "C143_opposite_partial",
    "C143_refuted"
   ],
   "note": "False of the code: a generator with two Ys is represented by minus its textbook matrix (Y is XZ), so the five-qubit code given with YYZIZ in place of XZZXI = YYZIZ * ZXIXZ, the same stabilizer group, is encoded into an orthogonal space. Proved: the property for generators with 0, 4, 8, ... Ys; the exact dependence for even numbers of Ys (the same space if the library's matrices are products of each other, in particular in any order; orthogonal if one is minus a product); the counterexample."
  },
  {
   "property": "C144",
   "status": "proved",
   "theorems": [
    "C144_expected",
    "C144_each_trial"
   ],
   "note": "C144_expected: the first trial; C144_each_trial: on a simulator, any later one. C75_more says that the estimate is the mean of the results of the trials. The formula for the average over pure states is Nielsen's and is taken as the definition. C144_case: for a Z gate on one qubit and epsilon = 1/2 the average fidelity is 1/3 and the expected estimate 1/4."
  },
  {
   "property": "C145",
   "status": "proved",
   "theorems": [
    "C145_agree"
   ],
   "note": "From C144 and C44. With Kraus operators instead of a Choi matrix average_entanglement_fidelity has another value (C43)."
  },
  {
   "property": "C146",
   "status": "partial",
   "theorems": [
    "C146_code_partial",
    "C146_undone_partial",
    "C146_refuted"
   ],
   "note": "False of the code: the random circuit is applied to all n qubits, so the n - k qubits the encoder needs in |0...0> are not. Proved: what is estimated instead, the average fidelity of the whole circuit over all states of n qubits; with the inverse of the encoder as decoder it is the average fidelity of the channel alone, whatever the encoder; and a counterexample, a Z gate on a qubit in |0> next to the message, for which 3/16 is expected."
  },
  {
   "property": "C147",
   "status": "proved",
   "theorems": [
    "C147_mean",
    "C147_law",
    "C147_error"
   ],
   "note": "numpy's random choices are uniform and independent, and outcomes of measurements have the probabilities of quantum mechanics; these enter the definition of has_mean (TwirlSpec3.v). C147_law shows that has_mean determines the mean of every function of the N results."
  },
  {
   "property": "C148",
   "status": "proved",
   "theorems": [
    "C148_expected",
    "C148_error"
   ],
   "note": "The choice of the circuit is one further random draw, independent of the random phases; the number drawn is modelled as the index of the circuit. C148_case is the example of the README: fidelity 14/15, 500 trials."
  },
  {
   "property": "C149",
   "status": "partial",
   "theorems": [
    "C149_choi_partial",
    "C149_refuted"
   ],
   "note": "True for channels given by their Choi matrix (C149_choi_partial). False for Kraus operators: for the README's bit flips with probability 1/10 average_entanglement_fidelity returns 1 (it adds up all entries of K_i rho, see C43), while the device estimates 14/15 (C149_refuted)."
  },
  {
   "property": "C150",
   "status": "proved",
   "theorems": [
    "C150_expected",
    "C150_error"
   ],
   "note": "Encoder, decoder and each circuit apply a unitary to the register (acts_as, keeps_norm); the encoder uses no random numbers (no_draws). The fidelity is the one over the states of all qubits, as in C146."
  },
  {
   "property": "C151",
   "status": "partial",
   "theorems": [
    "C151_own_partial",
    "C151_shared_partial",
    "C151_lowered_partial",
    "C151_refuted"
   ],
   "note": "True for operators given as a list and for sparse channels (C151_own_partial). False for a dense channel given a three-dimensional array, which it keeps without copying although its comment says it copies (C151_refuted). There writing into the array is, at every point of every history, assigning to kraus_ops, and to nth_kraus_ops too after n has gone down to 1 (C151_shared_partial); once n goes down the channel is the n-fold channel of what was written (C151_lowered_partial)."
  },
  {
   "property": "C152",
   "status": "partial",
   "theorems": [
    "C152_own_partial",
    "C152_shared_partial",
    "C152_refuted"
   ],
   "note": "True without logical_ops for writes to arrays that existed before (C152_own_partial). False in general (C152_refuted): the arrays in logical_ops are kept, and the array stab_bin_rep returns is the code's own, so pauli_stab and the generators can disagree. With logical_ops the code is at every time the one that would be built from what the two arrays hold then (C152_shared_partial)."
  },
  {
   "property": "C153",
   "status": "proved",
   "theorems": [
    "C153_distance",
    "C153_returned"
   ],
   "note": "C153_distance has C22's hypotheses on the inner logical operators. C153_returned drops them: when the inner code computed its own logical operators and the outer code has k >= 1 and distance at least 2, it is enough that concatenate_codes returns a code."
  },
  {
   "property": "C154",
   "status": "proved",
   "theorems": [
    "C154_distance"
   ],
   "note": "Equivalence, for every d."
  },
  {
   "property": "C155",
   "status": "proved",
   "theorems": [
    "C155_corrects",
    "C155_value"
   ],
   "note": "C155_corrects is through the package's circuits (as C113), C155_value through encode_krauss_operators and coherent_information (as C139). That both codes have generators with an even number of Ys is required; that the concatenated one then has too is proved."
  },
  {
   "property": "C156",
   "status": "proved",
   "theorems": [
    "C156_space",
    "C156_circuits",
    "C156_guard"
   ],
   "note": "C156_space for all states and codewords; C156_circuits for those of the encoding circuits, with the inner products; C156_guard says when the given generators fix what the circuit prepares (C105 has the general answer, C24 what happens to a Z part). Shor's code is the case."
  }
 ]
}