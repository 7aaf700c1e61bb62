{
 "claims": [
  {
   "property": "C01",
   "status": "proved",
   "theorems": [
    "C01_fresh_ids",
    "C01_surviving_states",
    "C01_compiled_order",
    "C01_good_histories_compile"
   ],
   "note": "all operation histories (exceptions abort the history)"
  },
  {
   "property": "C02",
   "status": "proved",
   "theorems": [
    "C02_normalize_exact",
    "C02_order_independent",
    "C02_idempotent"
   ],
   "note": "exact real arithmetic; every arc set order"
  },
  {
   "property": "C03",
   "status": "proved",
   "theorems": [
    "C03_terminates",
    "C03_next_exact",
    "C03_previous_exact",
    "C03_unset_state"
   ],
   "note": "both directions, any graph; also the behaviour when the start/end state is unset"
  },
  {
   "property": "C04",
   "status": "partial",
   "theorems": [
    "C04_path_weights_refuted",
    "C04_path_weights_partial",
    "C04_init_weights_partial"
   ],
   "note": "refuted in general by a concrete normalised acyclic graph; exact when no arc links two non-emitting states"
  },
  {
   "property": "C05",
   "status": "partial",
   "theorems": [
    "C05_rows",
    "C05_substochastic_partial",
    "C05_substochastic_refuted"
   ],
   "note": "row normalisation proved for every matrix; the sub-stochastic claim is refuted in general and proved for graphs without arc between non-emitting states"
  },
  {
   "property": "C06",
   "status": "partial",
   "theorems": [
    "C06_replace_states",
    "C06_replace_language",
    "C06_self_loop_refuted",
    "C06_start_state_refuted",
    "C06_unset_ends"
   ],
   "note": "language substitution proved for replaced states without self-loop that are neither start nor end; refuted for those (KeyError / dangling start state)"
  },
  {
   "property": "C07",
   "status": "proved",
   "theorems": [
    "C07_state_posteriors_exact",
    "C07_rows_sum_to_one",
    "C07_impossible_observation_is_nan",
    "C07_defined_iff_some_frame"
   ],
   "note": "all graphs, all frame counts; NaN on impossible observations and IndexError on zero frames covered"
  },
  {
   "property": "C08",
   "status": "proved",
   "theorems": [
    "C08_lognorm_is_log_evidence"
   ],
   "note": ""
  },
  {
   "property": "C09",
   "status": "proved",
   "theorems": [
    "C09_transition_posteriors_exact",
    "C09_transition_posteriors_count",
    "C09_transition_state_consistency",
    "C09_impossible_observation_is_zero"
   ],
   "note": ""
  },
  {
   "property": "C10",
   "status": "proved",
   "theorems": [
    "C10_best_path_optimal"
   ],
   "note": "for every arg-max tie-breaking"
  },
  {
   "property": "C11",
   "status": "proved",
   "theorems": [
    "C11_offsets_posteriors",
    "C11_offsets_path_order"
   ],
   "note": ""
  },
  {
   "property": "C12",
   "status": "proved",
   "theorems": [
    "C12_credit",
    "C12_mass_conserved",
    "C12_weighted_likelihood",
    "C12_likelihood",
    "C12_statistics",
    "C12_bad_order"
   ],
   "note": ""
  },
  {
   "property": "C13",
   "status": "proved",
   "theorems": [
    "C13_length",
    "C13_likelihood_concat",
    "C13_element_likelihood",
    "C13_index_errors",
    "C13_accumulate_columns"
   ],
   "note": "stated for sets with pairwise distinct parameters (see C79 for shared ones); element indexing for the sets that support it (indexable)"
  },
  {
   "property": "C14",
   "status": "proved",
   "theorems": [
    "C14_columns",
    "C14_element",
    "C14_index_never_out_of_range_refuted",
    "C14_accumulate",
    "C14_weighted_likelihood_conserved"
   ],
   "note": "plus: every integer index is accepted, so iteration does not stop"
  },
  {
   "property": "C15",
   "status": "partial",
   "theorems": [
    "C15_likelihood",
    "C15_joint_responsibilities",
    "C15_weights_statistics",
    "C15_element",
    "C15_slice_partial",
    "C15_negative_index_refuted",
    "C15_full_slice_refuted",
    "C15_step_slice_refuted",
    "C15_nested_index_refuted"
   ],
   "note": "likelihood, responsibilities, statistics, element index and explicit slices proved; refuted for index -1, [:], slices with a step, and sets over joint/repeated sets"
  },
  {
   "property": "C16",
   "status": "proved",
   "theorems": [
    "C16_value",
    "C16_optimal",
    "C16_model",
    "C16_statistics",
    "C16_labels"
   ],
   "note": "Mixture.posteriors itself is not covered (it reads an attribute that does not exist)"
  },
  {
   "property": "C17",
   "status": "partial",
   "theorems": [
    "C17_scaled_posteriors_partial",
    "C17_mixture_emissions_refuted"
   ],
   "note": "proved for emission sets without mixtures; refuted with mixture emissions"
  },
  {
   "property": "C18",
   "status": "partial",
   "theorems": [
    "C18_value_partial",
    "C18_upper_bound_refuted",
    "C18_strict_refuted"
   ],
   "note": "refuted: the value is log-evidence + KL(path posterior, path prior), an upper bound; exact decomposition proved"
  },
  {
   "property": "C19",
   "status": "partial",
   "theorems": [
    "C19_entries",
    "C19_others_unchanged",
    "C19_row_sum",
    "C19_row_stochastic",
    "C19_single_state_phones_refuted",
    "C19_dirichlet_rows_refuted",
    "C19_stick_breaking_rows_refuted"
   ],
   "note": "proved when no phone start state is also an end state and the exponentials of the log-weights sum to one; refuted for single-state phones, and refuted for the actual Dirichlet (two phones or more) and stick-breaking posteriors, whose expected log-weights always give rows summing to less than one"
  },
  {
   "property": "C20",
   "status": "partial",
   "theorems": [
    "C20_stick_breaking_partial",
    "C20_categorical_set_transposed_refuted",
    "C20_witness_refuted"
   ],
   "note": "proved for SBCategoricalSet; refuted for CategoricalSet (transposed)"
  },
  {
   "property": "C21",
   "status": "proved",
   "theorems": [
    "C21_expected_phone_counts",
    "C21_hard_path_counts",
    "C21_alignments_bring_nothing"
   ],
   "note": ""
  },
  {
   "property": "C22",
   "status": "proved",
   "theorems": [
    "C22_decode_left_inverse",
    "C22_one_state_repetition_refuted",
    "C22_path_must_start_in_entry_state",
    "C22_empty_path"
   ],
   "note": "any inventory with distinct entry pdfs, any durations; two successive visits of the same phone need a state other than the entry state in between (shown necessary); KeyError for a path starting inside a phone"
  },
  {
   "property": "C23",
   "status": "partial",
   "theorems": [
    "C23_last_state_dropped_partial",
    "C23_mass_refuted"
   ],
   "note": "refuted: posteriors.py slices start:end while end_pdf is inclusive, so the mass of the last state of each phone is dropped; exact value of what is returned is proved"
  },
  {
   "property": "C24",
   "status": "proved",
   "theorems": [
    "C24_any_order_any_grouping",
    "C24_same_stored_statistics",
    "C24_empty_is_neutral"
   ],
   "note": ""
  },
  {
   "property": "C25",
   "status": "proved",
   "theorems": [
    "C25_backward_exact",
    "C25_different_sizes_raise",
    "C25_no_data_raises"
   ],
   "note": ""
  },
  {
   "property": "C26",
   "status": "partial",
   "theorems": [
    "C26_sum_value_exact_partial",
    "C26_weighted_average_partial",
    "C26_refuted"
   ],
   "note": "refuted: the sum of the minibatch values is not the value of the whole batch; the exact sum and the weighted average that does give it are proved"
  },
  {
   "property": "C27",
   "status": "proved",
   "theorems": [
    "C27_convex_step",
    "C27_full_step_forgets",
    "C27_geometric_convergence"
   ],
   "note": ""
  },
  {
   "property": "C28",
   "status": "proved",
   "theorems": [
    "C28_observers_once_each_side",
    "C28_update_uses_transformed_stats",
    "C28_registration_is_a_set"
   ],
   "note": "observers that do not change the posterior or the observer set (the ones of the code)"
  },
  {
   "property": "C29",
   "status": "proved",
   "theorems": [
    "C29_round_robin",
    "C29_number_of_updates",
    "C29_step_effect",
    "C29_init_step_zeroes"
   ],
   "note": ""
  },
  {
   "property": "C30",
   "status": "partial",
   "theorems": [
    "C30_checkpoints_are_transparent",
    "C30_generic_optimiser",
    "C30_load_state_refuted"
   ],
   "note": "state_dict/load_state_dict proved transparent; VBOptimizer.load_state always raises NameError (refuted)"
  },
  {
   "property": "C31",
   "status": "partial",
   "theorems": [
    "C31_train_refuted",
    "C31_default_batch_size_refuted",
    "C31_positive_batch_size_partial",
    "C31_zero_batch_size_raises"
   ],
   "note": "refuted: the command raises AttributeError; the loop with batch size -1 updates after each utterance; block structure for positive sizes proved"
  },
  {
   "property": "C32",
   "status": "proved",
   "theorems": [
    "C32_no_parameter_lost",
    "C32_exactly_once",
    "C32_merge_any_lengths",
    "C32_joint_rejects_others",
    "C32_only_raises_on_invalid_joint",
    "C32_one_training_cycle"
   ],
   "note": "models built from the listed classes; parameters of HierarchicalAffineTransform are delegated to its root transform as the code comments say"
  },
  {
   "property": "C33",
   "status": "proved",
   "theorems": [
    "C33_roundtrip",
    "C33_count_conjugacy",
    "C33_positive_forever",
    "C33_mean_is_a_distribution"
   ],
   "note": "any number of categories, any weighted data; also any learning rate, positivity along training histories, mean weights sum to one"
  },
  {
   "property": "C34",
   "status": "partial",
   "theorems": [
    "C34_normalised_partial",
    "C34_refuted",
    "C34_excess_bound_partial",
    "C34_likelihood_is_log_weight"
   ],
   "note": "refuted above the softplus threshold (log-sum-exp > 20: weights sum to 1 + 1/sum exp); proved below it, excess at most exp(-20) always; likelihood of one-hot vectors is always the log-weight"
  },
  {
   "property": "C35",
   "status": "partial",
   "theorems": [
    "C35_roundtrip_partial",
    "C35_update_partial",
    "C35_likelihood_value_partial",
    "C35_likelihood_refuted"
   ],
   "note": "round-trip and update proved; the likelihood function is refuted (sign of the first statistic), its exact value proved"
  },
  {
   "property": "C36",
   "status": "proved",
   "theorems": [
    "C36_roundtrip",
    "C36_textbook_posterior",
    "C36_positive_forever"
   ],
   "note": ""
  },
  {
   "property": "C37",
   "status": "proved",
   "theorems": [
    "C37_roundtrip",
    "C37_textbook_posterior",
    "C37_positive_forever"
   ],
   "note": ""
  },
  {
   "property": "C38",
   "status": "proved",
   "theorems": [
    "C38_roundtrip",
    "C38_roundtrip_natural",
    "C38_textbook_posterior",
    "C38_positive_definite_forever"
   ],
   "note": "round-trip both ways for any invertible scale matrix; textbook posterior around the posterior mean and around the empirical mean; positive definiteness and absence of failure along all histories"
  },
  {
   "property": "C39",
   "status": "partial",
   "theorems": [
    "C39_refuted",
    "C39_documented_form_partial"
   ],
   "note": "refuted: means and variances come back multiplied by -1/2; from_natural_parameters is proved to invert the documented form"
  },
  {
   "property": "C40",
   "status": "proved",
   "theorems": [
    "C40_dirichlet",
    "C40_gamma",
    "C40_normal_gamma",
    "C40_isotropic_normal_gamma",
    "C40_diagonal_normal",
    "C40_normal_gamma_value",
    "C40_diagonal_normal_value",
    "C40_normal_wishart",
    "C40_normal_wishart_value",
    "C40_full_normal"
   ],
   "note": "Dirichlet, Gamma, NormalGamma, isotropic NormalGamma, NormalWishart, diagonal and full Normal, with textbook values"
  },
  {
   "property": "C41",
   "status": "proved",
   "theorems": [
    "C41_normal_gamma",
    "C41_isotropic_normal_gamma",
    "C41_dirichlet",
    "C41_gamma",
    "C41_normal_wishart"
   ],
   "note": "Dirichlet, Gamma, NormalGamma, isotropic NormalGamma, NormalWishart"
  },
  {
   "property": "C42",
   "status": "proved",
   "theorems": [
    "C42_diagonal",
    "C42_isotropic",
    "C42_normal_diag_forward",
    "C42_full",
    "C42_full_real_vectors",
    "C42_full_normal_forward"
   ],
   "note": "diagonal, isotropic and full covariance; densities of diagonal Normals and of batches of full Normals"
  },
  {
   "property": "C43",
   "status": "proved",
   "theorems": [
    "C43_reverse_order",
    "C43_tail_counts",
    "C43_update",
    "C43_positive_forever",
    "C43_set_tail_counts"
   ],
   "note": "all orders; also the resulting posteriors along training, positivity, and the sets"
  },
  {
   "property": "C44",
   "status": "proved",
   "theorems": [
    "C44_set_members",
    "C44_weights_subprobability",
    "C44_weights_exact",
    "C44_epsilon_only_shrinks"
   ],
   "note": "with the normalising constant as a parameter: exact total without it, upper bound with it"
  },
  {
   "property": "C45",
   "status": "proved",
   "theorems": [
    "C45_value",
    "C45_empty",
    "C45_stable",
    "C45_bounds",
    "C45_shift",
    "C45_matrix"
   ],
   "note": "exact value on extended reals, exponent signs, bounds, shift, both dimensions"
  },
  {
   "property": "C46",
   "status": "partial",
   "theorems": [
    "C46_onehot_partial",
    "C46_far_labels_raise",
    "C46_negative_labels_refuted"
   ],
   "note": "proved for labels in range; labels beyond the ends raise; refuted for small negative labels, which wrap around"
  },
  {
   "property": "C47",
   "status": "partial",
   "theorems": [
    "C47_rows_accumulate_partial",
    "C47_first_row_partial",
    "C47_rows_are_gradients_refuted",
    "C47_unused_input_raises"
   ],
   "note": "refuted: the gradients accumulate, row k is the sum of the gradients of outputs 0..k; the first row is right"
  },
  {
   "property": "C48",
   "status": "partial",
   "theorems": [
    "C48_reserved_partial",
    "C48_default_logger_refuted"
   ],
   "note": "proved with a logger; refuted without one (the default): AttributeError in every environment"
  },
  {
   "property": "C49",
   "status": "proved",
   "theorems": [
    "C49_autoregressive",
    "C49_masks",
    "C49_variances",
    "C49_build"
   ],
   "note": "For all draws of the connections, weights, activations and flow parameters: output d depends on inputs before d only; masks characterised exactly; variances in (0.01, 1.01); constructor fails exactly in dimension 1 or without hidden layer."
  },
  {
   "property": "C50",
   "status": "proved",
   "theorems": [
    "C50_mel",
    "C50_bark"
   ],
   "note": ""
  },
  {
   "property": "C51",
   "status": "proved",
   "theorems": [
    "C51_frames",
    "C51_fft_len",
    "C51_errors"
   ],
   "note": "exact number of frames, all reads inside, maximality, behaviour on short signals; FFT length through the real logarithm"
  },
  {
   "property": "C52",
   "status": "partial",
   "theorems": [
    "C52_shape",
    "C52_constant",
    "C52_half_slope_partial",
    "C52_ramp_refuted",
    "C52_linear",
    "C52_empty"
   ],
   "note": "shape, linearity, constants proved; refuted: the filter is normalised by twice the right sum, deltas are half the least squares slope (proved exactly)"
  },
  {
   "property": "C53",
   "status": "proved",
   "theorems": [
    "C53_pooled",
    "C53_order_and_grouping",
    "C53_empty"
   ],
   "note": ""
  },
  {
   "property": "C54",
   "status": "proved",
   "theorems": [
    "C54_wer_is_levenshtein",
    "C54_zero_iff_equal",
    "C54_corpus_rate",
    "C54_corpus_unique",
    "C54_merge_option",
    "C54_map_option"
   ],
   "note": "minimum over all edit scripts, corpus rate, optional merging of repetitions"
  },
  {
   "property": "C55",
   "status": "proved",
   "theorems": [
    "C55_same_distance",
    "C55_same_duplicate_removal",
    "C55_same_rate",
    "C55_different_utterances",
    "C55_map_and_remove_options",
    "C55_remove_option",
    "C55_duplicates_last",
    "C55_same_rate_with_options"
   ],
   "note": "same number of errors and same duplicate removal for all inputs; the two programs differ on which utterances are compared"
  },
  {
   "property": "C56",
   "status": "proved",
   "theorems": [
    "C56_hits_matching",
    "C56_matching_size",
    "C56_empty_reference",
    "C56_rates_in_unit_interval",
    "C56_long_utterance_refuted"
   ],
   "note": "for boundaries below the 10000000 sentinel; refuted beyond (C56_long_utterance_refuted)"
  },
  {
   "property": "C57",
   "status": "partial",
   "theorems": [
    "C57_matching_refuted",
    "C57_crash_refuted",
    "C57_recall_partial",
    "C57_rates_partial"
   ],
   "note": "refuted (a reference boundary can be hit twice; empty reference crashes); the recall side is proved"
  },
  {
   "property": "C58",
   "status": "partial",
   "theorems": [
    "C58_mutual_information",
    "C58_percentage_partial",
    "C58_negative_refuted",
    "C58_set_order"
   ],
   "note": "exact for the smoothed table up to (number of phones)*1e-37/ln 2; exact non-negativity of the computed difference refuted (smoothing inside the logarithm)"
  },
  {
   "property": "C59",
   "status": "partial",
   "theorems": [
    "C59_argmax",
    "C59_errors",
    "C59_best_accuracy",
    "C59_map_hypothesis_partial",
    "C59_unmapped_unit_refuted",
    "C59_maptrans"
   ],
   "note": "arg-max, optimal accuracy, exact failure condition proved; \"no unit left unmapped\" refuted for hypotheses longer than their reference and proved otherwise"
  },
  {
   "property": "C60",
   "status": "proved",
   "theorems": [
    "C60_boundaries_are_change_points",
    "C60_empty_utterance",
    "C60_expand_collapse",
    "C60_expand_frames",
    "C60_collapse_expand",
    "C60_boundaries_of_expansion",
    "C60_ali2trans"
   ],
   "note": "also: ali2trans loses the first label when it equals the utterance id (exact value proved)"
  },
  {
   "property": "C61",
   "status": "proved",
   "theorems": [
    "C61_timit_alignment",
    "C61_binary64_monotone",
    "C61_malformed"
   ],
   "note": "for every monotone frame conversion; the binary64 conversion of the code proved monotone (Flocq)"
  },
  {
   "property": "C62",
   "status": "proved",
   "theorems": [
    "C62_clamped_window",
    "C62_width"
   ],
   "note": ""
  },
  {
   "property": "C63",
   "status": "partial",
   "theorems": [
    "C63_central_frame_partial",
    "C63_single_frame_refuted"
   ],
   "note": "refuted for interior segments of a single frame; proved for all others"
  },
  {
   "property": "C64",
   "status": "partial",
   "theorems": [
    "C64_unit_graph",
    "C64_inventory_partial",
    "C64_succeeds",
    "C64_empty_group_refuted",
    "C64_shifted_ids_refuted",
    "C64_repeated_name_refuted"
   ],
   "note": "Proved for topologies over the ids 0..n-1 and distinct unit names. C64_succeeds: mkphones then succeeds if and only if every group of the configuration has a unit and an emitting state; C64_empty_group_refuted: otherwise it stops with an undefined variable or a division by zero. Refuted for other inputs: with ids 1..n two units share a pdf id and the end state is not registered, and a repeated name loses pdf ids."
  },
  {
   "property": "C65",
   "status": "partial",
   "theorems": [
    "C65_identity_partial",
    "C65_success",
    "C65_repeated_name_refuted",
    "C65_malformed_line"
   ],
   "note": "Proved for every inventory with distinct names and topologies over 0..n-1 (identity mapping whatever the loop; success and start/end pdfs for single entry / exit topologies with positive weights); refuted when a unit name is repeated."
  },
  {
   "property": "C66",
   "status": "proved",
   "theorems": [
    "C66_language",
    "C66_weights",
    "C66_unknown_phone"
   ],
   "note": "Units are graphs built through the API (start and end state registered) with positive weights; exact weights when the units are normalised; unknown phone gives KeyError."
  },
  {
   "property": "C67",
   "status": "partial",
   "theorems": [
    "C67_maximum_refuted",
    "C67_half_of_maximum_partial"
   ],
   "note": "refuted: the greedy search is not a maximum matching; at least half of the maximum is proved"
  },
  {
   "property": "C68",
   "status": "partial",
   "theorems": [
    "C68_single_transcription_partial",
    "C68_program_refuted"
   ],
   "note": "holds within one call; refuted across the two calls of the program (counter restarts)"
  },
  {
   "property": "C69",
   "status": "proved",
   "theorems": [
    "C69_convert_states_left_inverse",
    "C69_empty",
    "C69_prepare_states_round_trip"
   ],
   "note": ""
  },
  {
   "property": "C70",
   "status": "proved",
   "theorems": [
    "C70_pdf2unit_left_inverse"
   ],
   "note": ""
  },
  {
   "property": "C71",
   "status": "partial",
   "theorems": [
    "C71_posteriors_skip",
    "C71_decode_skip_partial",
    "C71_decode_skip_refuted"
   ],
   "note": "posteriors proved; decode refuted when the first listed utterance is missing (NameError), proved otherwise"
  },
  {
   "property": "C73",
   "status": "proved",
   "theorems": [
    "C73_token_counts",
    "C73_entropy_bounds"
   ],
   "note": ""
  },
  {
   "property": "C75",
   "status": "proved",
   "theorems": [
    "C75_split_into_jobs_is_irrelevant"
   ],
   "note": ""
  },
  {
   "property": "C76",
   "status": "partial",
   "theorems": [
    "C76_learning_rate_refuted",
    "C76_no_statistics",
    "C76_state_carries_on_partial"
   ],
   "note": "refuted when an optimiser state exists; the state carried over is characterised exactly"
  },
  {
   "property": "C77",
   "status": "partial",
   "theorems": [
    "C77_first_missing_refuted",
    "C77_later_missing_skipped_partial"
   ],
   "note": "refuted when the first utterance is missing (NameError); proved when the first one is present"
  },
  {
   "property": "C78",
   "status": "proved",
   "theorems": [
    "C78_likelihood",
    "C78_statistics",
    "C78_keys",
    "C78_indexing"
   ],
   "note": "sets with pairwise distinct parameters"
  },
  {
   "property": "C79",
   "status": "partial",
   "theorems": [
    "C79_last_set_wins_partial",
    "C79_shared_statistics_lost_refuted"
   ],
   "note": "refuted: only the statistics of the last set are kept"
  },
  {
   "property": "C72",
   "status": "partial",
   "theorems": [
    "C72_short_utterance_refuted",
    "C72_best_path_refuted",
    "C72_hard_responsibilities_partial"
   ],
   "note": "refuted: IndexError when a path state index is at least the number of frames; proved otherwise"
  },
  {
   "property": "C80",
   "status": "proved",
   "theorems": [
    "C80_value",
    "C80_statistics",
    "C80_defined",
    "C80_undefined"
   ],
   "note": ""
  },
  {
   "property": "C81",
   "status": "proved",
   "theorems": [
    "C81_decode"
   ],
   "note": ""
  },
  {
   "property": "C82",
   "status": "partial",
   "theorems": [
    "C82_expected_bigram_counts",
    "C82_alignments_refuted"
   ],
   "note": "counts proved; refuted with alignments (TypeError)"
  },
  {
   "property": "C83",
   "status": "proved",
   "theorems": [
    "C83_flat_parameters",
    "C83_groups"
   ],
   "note": ""
  },
  {
   "property": "C84",
   "status": "partial",
   "theorems": [
    "C84_refuted",
    "C84_two_names_refuted",
    "C84_replaces_all_partial",
    "C84_structure_kept"
   ],
   "note": "refuted: parameters inside a JointModelSet (ModuleList) or under a second name are not replaced; proved for trees of Models with distinct names"
  },
  {
   "property": "C85",
   "status": "partial",
   "theorems": [
    "C85_diagonal",
    "C85_gamma",
    "C85_isotropic_refuted",
    "C85_isotropic_batch_refuted",
    "C85_isotropic_partial",
    "C85_full",
    "C85_full_bad_length"
   ],
   "note": "proved for diagonal and full covariance normal and gamma; refuted for the isotropic normal (uses the last mean coordinate as log-precision, NameError on batches)"
  },
  {
   "property": "C86",
   "status": "partial",
   "theorems": [
    "C86_value_partial",
    "C86_difference_partial",
    "C86_refuted"
   ],
   "note": "refuted: the value is the log-density plus half the squared norm of x; proved exactly"
  },
  {
   "property": "C87",
   "status": "proved",
   "theorems": [
    "C87_diagonal",
    "C87_isotropic",
    "C87_categorical",
    "C87_full"
   ],
   "note": "diagonal, isotropic and full covariance normal, categorical"
  },
  {
   "property": "C88",
   "status": "partial",
   "theorems": [
    "C88_dimensions_partial",
    "C88_fixed_covariance_refuted",
    "C88_full_covariance_refuted",
    "C88_full_covariance_partial"
   ],
   "note": "proved for categorical, gamma, diagonal and isotropic normal; refuted for the fixed covariance normal and, above one dimension, for the full covariance normal"
  },
  {
   "property": "C89",
   "status": "partial",
   "theorems": [
    "C89_refuted"
   ],
   "note": "refuted: always raises NameError"
  },
  {
   "property": "C90",
   "status": "partial",
   "theorems": [
    "C90_roundtrip_refuted",
    "C90_roundtrip_partial",
    "C90_single_forward_refuted"
   ],
   "note": "round-trip refuted above one dimension (shape not restored), proved in one; single forward refuted (IndexError), batch forward proved (C42_full_normal_forward)"
  },
  {
   "property": "C91",
   "status": "proved",
   "theorems": [
    "C91_expected_log_weights"
   ],
   "note": "all orders, Beta expectations, Jensen bound"
  },
  {
   "property": "C92",
   "status": "proved",
   "theorems": [
    "C92_concentration_update",
    "C92_statistics_are_the_likelihood"
   ],
   "note": "posterior and prior after the update; statistics derived from the Beta likelihood"
  },
  {
   "property": "C93",
   "status": "partial",
   "theorems": [
    "C93_set_prior_proper",
    "C93_set_prior_centred_partial",
    "C93_reordered_root_refuted"
   ],
   "note": "refuted once the root has been re-ordered; proved for the initial order without the normalising constant; properness proved for all orders"
  },
  {
   "property": "C94",
   "status": "partial",
   "theorems": [
    "C94_symposdef_partial",
    "C94_negative_matrices_refuted",
    "C94_unchanged"
   ],
   "note": "proved when the matrix is positive in some direction; refuted otherwise; torch.symeig by its contract"
  },
  {
   "property": "C95",
   "status": "proved",
   "theorems": [
    "C95_hessian"
   ],
   "note": ""
  },
  {
   "property": "C96",
   "status": "partial",
   "theorems": [
    "C96_network_steps",
    "C96_step_is_a_bijection",
    "C96_jacobian",
    "C96_density_partial",
    "C96_use_mean_refuted"
   ],
   "note": "Bijectivity, triangular Jacobian, log-determinant and density proved for sampling; with use_mean=True the returned number misses the Gaussian constant (refuted)."
  },
  {
   "property": "C97",
   "status": "proved",
   "theorems": [
    "C97_normal_llh",
    "C97_samples",
    "C97_variances_positive",
    "C97_outputs",
    "C97_isotropic_outputs",
    "C97_bernoulli",
    "C97_residual",
    "C97_residual_block"
   ],
   "note": ""
  },
  {
   "property": "C98",
   "status": "partial",
   "theorems": [
    "C98_roundtrip",
    "C98_white_space",
    "C98_documented_separator_refuted"
   ],
   "note": "Round trip proved for the separator ';' used by the code; the documented separator ',' always raises ValueError with two or more arguments (refuted)."
  },
  {
   "property": "C99",
   "status": "partial",
   "theorems": [
    "C99_filters_partial",
    "C99_coinciding_refuted",
    "C99_narrow_refuted",
    "C99_sampling_rate_refuted"
   ],
   "note": "proved when the first two edges are at least one bin apart (Mel scale, aligned); refuted otherwise (NaN when two tops coincide, IndexError for narrow unaligned filters); refuted: fbank ignores srate"
  },
  {
   "property": "C100",
   "status": "proved",
   "theorems": [
    "C100_offset",
    "C100_volume",
    "C100_shape",
    "C100_silence",
    "C100_mean_norm"
   ],
   "note": ""
  },
  {
   "property": "C101",
   "status": "proved",
   "theorems": [
    "C101_orthonormal",
    "C101_coefficients",
    "C101_lost_coefficient",
    "C101_lifter"
   ],
   "note": ""
  },
  {
   "property": "C102",
   "status": "proved",
   "theorems": [
    "C102_utterances"
   ],
   "note": "sorting by code points, shuffle as an arbitrary permutation"
  },
  {
   "property": "C103",
   "status": "proved",
   "theorems": [
    "C103_decoding_language"
   ],
   "note": "Distinct unit names other than the three special symbols, usable units with positive weights, non-empty group name."
  },
  {
   "property": "C104",
   "status": "partial",
   "theorems": [
    "C104_compile_language_partial",
    "C104_no_return_language",
    "C104_compile_language_refuted"
   ],
   "note": "Proved when no compiled self-transition reaches one, in particular when no path through non-emitting states returns to the state it left and self-loop weights are below one; refuted otherwise (normalised graph losing a sequence, consequence of the weights of C04)."
  },
  {
   "property": "C105",
   "status": "proved",
   "theorems": [
    "C105_diagonal_positive",
    "C105_full_positive_definite",
    "C105_full_reachable",
    "C105_wrong_size",
    "C105_new_posteriors"
   ],
   "note": ""
  },
  {
   "property": "C106",
   "status": "proved",
   "theorems": [
    "C106_affine",
    "C106_linear",
    "C106_hierarchical",
    "C106_hierarchical_assertion"
   ],
   "note": ""
  },
  {
   "property": "C107",
   "status": "proved",
   "theorems": [
    "C107_decomposition",
    "C107_pdf_vectors",
    "C107_models"
   ],
   "note": ""
  },
  {
   "property": "C108",
   "status": "proved",
   "theorems": [
    "C108_objective",
    "C108_full_entropy",
    "C108_gaussian_parameter",
    "C108_gaussian_likelihood"
   ],
   "note": "Latent priors whose log-likelihood is linear in the statistics (Normal models)."
  },
  {
   "property": "C109",
   "status": "proved",
   "theorems": [
    "C109_values",
    "C109_responsibilities"
   ],
   "note": ""
  },
  {
   "property": "C110",
   "status": "partial",
   "theorems": [
    "C110_view_value_partial",
    "C110_view_write_partial",
    "C110_nested_view_refuted",
    "C110_natural_form_refuted"
   ],
   "note": "A view of a view is indexed in the whole parameter and natural_form of a view returns None: refuted with witnesses; values and writes of simple views are proved."
  },
  {
   "property": "C113",
   "status": "proved",
   "theorems": [
    "C113_diagonal",
    "C113_full",
    "C113_moments"
   ],
   "note": ""
  },
  {
   "property": "C111",
   "status": "partial",
   "theorems": [
    "C111_normal_prior_partial",
    "C111_vector_prior_partial",
    "C111_sum_partial",
    "C111_covariances_partial",
    "C111_sum_refuted"
   ],
   "note": "The code returns an N x N tensor: its value is proved entry by entry, its sum is N times the sum of the claim (refuted with a witness)."
  },
  {
   "property": "C112",
   "status": "partial",
   "theorems": [
    "C112_full",
    "C112_diagonal_one_partial",
    "C112_diagonal_square_partial",
    "C112_diagonal_refuted",
    "C112_diagonal_shape_refuted"
   ],
   "note": "Full covariance: proved. Diagonal covariance: the normalizer of the n-th distribution is used for the n-th frame (refuted), shapes K <> N raise an error; right for a single distribution."
  },
  {
   "property": "C114",
   "status": "proved",
   "theorems": [
    "C114_is_mixture",
    "C114_bound"
   ],
   "note": ""
  },
  {
   "property": "C115",
   "status": "partial",
   "theorems": [
    "C115_full_partial",
    "C115_diagonal_partial",
    "C115_isotropic_partial",
    "C115_scalar_refuted"
   ],
   "note": "Proved for covariances given as tensors with at least one dimension; refuted for scalars without dimension (RuntimeError), which the docstring allows."
  },
  {
   "property": "C116",
   "status": "partial",
   "theorems": [
    "C116_unknown_type_refuted",
    "C116_types_partial",
    "C116_isotropic_empty"
   ],
   "note": "Refuted: the test is `cov_type not in cov_type`, never true; an unknown type gives KeyError. It is refused in any case."
  },
  {
   "property": "C117",
   "status": "proved",
   "theorems": [
    "C117_full",
    "C117_diagonal",
    "C117_isotropic"
   ],
   "note": ""
  },
  {
   "property": "C118",
   "status": "partial",
   "theorems": [
    "C118_create_partial",
    "C118_llh_refuted",
    "C118_update_partial",
    "C118_update_refuted",
    "C118_negative_rate_refuted"
   ],
   "note": "Creation and the shape update hold. Refuted: expected_log_likelihood always raises RuntimeError; the rate is updated with the sum of the data subtracted, and can become negative."
  },
  {
   "property": "C119",
   "status": "proved",
   "theorems": [
    "C119_categorical",
    "C119_uniform",
    "C119_sticks"
   ],
   "note": ""
  },
  {
   "property": "C120",
   "status": "partial",
   "theorems": [
    "C120_units_partial",
    "C120_group_found",
    "C120_gaps_refuted",
    "C120_no_emitting_state"
   ],
   "note": "Proved for topologies with consecutive ids, at least one emitting state and an arc into the last state. Refuted: ids with gaps are counted as states; without emitting state the division raises ZeroDivisionError."
  },
  {
   "property": "C121",
   "status": "proved",
   "theorems": [
    "C121_partition",
    "C121_joint_set"
   ],
   "note": "Emissions are mixtures of components (the only sets mkphones builds); the remainder of the division is left out."
  },
  {
   "property": "C122",
   "status": "partial",
   "theorems": [
    "C122_values_partial",
    "C122_totals_partial",
    "C122_totals_refuted",
    "C122_consistency_refuted"
   ],
   "note": "Exact values proved. Refuted: counts of the weights are multiplied by states/3, statistics of the components by the number of states (the normalized weights are computed but not used), so weights and components disagree by a factor of three."
  },
  {
   "property": "C123",
   "status": "proved",
   "theorems": [
    "C123_last_update",
    "C123_history",
    "C123_average",
    "C123_counts"
   ],
   "note": ""
  },
  {
   "property": "C124",
   "status": "partial",
   "theorems": [
    "C124_labels_partial",
    "C124_too_many",
    "C124_missing_unit_refuted"
   ],
   "note": "Proved when the classified units are those of the group in the order of the emissions; too many raise IndexError. Refuted: a unit missing from the class file shifts the labels of all the following units."
  },
  {
   "property": "C125",
   "status": "partial",
   "theorems": [
    "C125_prior_partial",
    "C125_variance_refuted",
    "C125_units",
    "C125_bad_variance"
   ],
   "note": "Means, zero KL, copied and drawn units proved. Refuted: the variance is the requested one plus 1e-4."
  },
  {
   "property": "C126",
   "status": "partial",
   "theorems": [
    "C126_epochs_partial",
    "C126_zero_epochs_refuted"
   ],
   "note": "Proved for at least one epoch. Refuted: zero epochs raise NameError."
  },
  {
   "property": "C127",
   "status": "partial",
   "theorems": [
    "C127_value_partial",
    "C127_bound_partial",
    "C127_counted_once_refuted",
    "C127_language",
    "C127_language_statistics",
    "C127_empty_language"
   ],
   "note": "The shared transform and the latent prior are counted once. Refuted: the divergence of the unit prior is counted once per language; the value is still a lower bound, exact for one language or an unmoved unit prior."
  },
  {
   "property": "C128",
   "status": "partial",
   "theorems": [
    "C128_shmm_epoch",
    "C128_shmm_posteriors_only",
    "C128_shmm_train",
    "C128_hierarchical_epoch",
    "C128_hierarchical_decay_refuted",
    "C128_frozen"
   ],
   "note": "Proved for shmm train and for the frozen mode. Refuted for hshmm train: the unit prior is updated without statistics and decays to its own prior, the latent prior of the languages is never updated."
  },
  {
   "property": "C129",
   "status": "proved",
   "theorems": [
    "C129_samples"
   ],
   "note": ""
  },
  {
   "property": "C74",
   "status": "partial",
   "theorems": [
    "C74_counts_partial",
    "C74_missing_hypothesis_refuted",
    "C74_first_missing_refuted",
    "C74_margins",
    "C74_groups",
    "C74_unmapped"
   ],
   "note": "Proved when every reference file has a hypothesis; the margins are inconsistent by the extra epsilons. Refuted for a missing hypothesis: the frames are compared with the previous file's alignment, or NameError for the first file."
  },
  {
   "property": "C130",
   "status": "partial",
   "theorems": [
    "C130_no_smoothing_partial",
    "C130_smoothing_refuted"
   ],
   "note": "Proved for epsilon = 0. Refuted for every positive epsilon (1e-12 is the default): the joint rows get one epsilon per hypothesis symbol and the mutual information can be negative."
  },
  {
   "property": "C131",
   "status": "proved",
   "theorems": [
    "C131_classes",
    "C131_concentration",
    "C131_dirichlet",
    "C131_sticks",
    "C131_bigram_starts_as_unigram",
    "C131_hierarchical_prior"
   ],
   "note": "the expected log-weights are used, so the end rows sum to less than one (see C19)"
  },
  {
   "property": "C132",
   "status": "partial",
   "theorems": [
    "C132_default_prior_refuted",
    "C132_bigram_input",
    "C132_dirichlet_input_refuted",
    "C132_hierarchical",
    "C132_dirichlet2_refuted",
    "C132_single_state_refuted",
    "C132_nested_likelihood",
    "C132_nested_statistics"
   ],
   "note": "Proved for the hierarchical prior from a stick-breaking phone-loop with disjoint starts and ends. Refuted: the default of --weights-prior is not a key of the priors (KeyError); dirichlet2 forgets the unigram weights; a Dirichlet phone-loop raises AttributeError; single-state phones change the transitions."
  },
  {
   "property": "C133",
   "status": "partial",
   "theorems": [
    "C133_lookup",
    "C133_archive_partial",
    "C133_collision_refuted",
    "C133_no_dot_refuted",
    "C133_inner_refuted"
   ],
   "note": "Proved when no id contains the extension. Refuted otherwise: all the occurrences of the extension are removed, so two files may share an id and one is lost; the pattern has no dot, so names merely ending with its letters are archived too."
  },
  {
   "property": "C134",
   "status": "proved",
   "theorems": [
    "C134_order",
    "C134_numbered",
    "C134_case",
    "C134_prefix"
   ],
   "note": "natsort's default key on ASCII names"
  },
  {
   "property": "C135",
   "status": "partial",
   "theorems": [
    "C135_network",
    "C135_no_residual",
    "C135_inplace_residual_refuted",
    "C135_merge_first_only",
    "C135_merge_refuted",
    "C135_merge_inputs",
    "C135_merge_identity_refuted",
    "C135_create_element",
    "C135_unknown_element",
    "C135_wrong_arguments",
    "C135_create_net"
   ],
   "note": "Proved: creation from descriptions, ValueError for unknown names, composition/residual/no modification when modules writing in place come after one making a new tensor and nothing is merged; right output without residual whatever writes in place; merged transforms with one tensor per transform. Refuted: a block beginning with an in-place module gives its residual connection the overwritten tensor; inside a Sequential a merge receives one tensor and computes its first transform only; a merge beginning with the identity writes the sum into the caller's tensor."
  },
  {
   "property": "C136",
   "status": "partial",
   "theorems": [
    "C136_init_units",
    "C136_short_vector",
    "C136_same",
    "C136_languages",
    "C136_saved_root_partial",
    "C136_saved_root_refuted"
   ],
   "note": "Everything proved except: with --init-from and without --adapt-from the saved model of the language keeps the root of its own file (refuted; training resets the roots, C137)."
  },
  {
   "property": "C137",
   "status": "partial",
   "theorems": [
    "C137_train_group",
    "C137_same_group_partial",
    "C137_same_group_refuted",
    "C137_train_roots",
    "C137_pairing_partial",
    "C137_pairing_refuted"
   ],
   "note": "Roots and longest group proved. The commands select the same group when it is the longest with two units at least or when two groups are exchanged; refuted for two units in the first group and more in the second. Pairing proved when both dictionaries list the languages in the same order, refuted otherwise."
  },
  {
   "property": "C138",
   "status": "proved",
   "theorems": [
    "C138_mapping",
    "C138_map_trans",
    "C138_unmapped",
    "C138_transcript",
    "C138_program",
    "C138_empty_line"
   ],
   "note": "The lines are given as lists of tokens; the transcript theorem assumes distinct utterance names (a later line replaces an earlier one)."
  },
  {
   "property": "C139",
   "status": "partial",
   "theorems": [
    "C139_two_steps",
    "C139_two_tokens_refuted",
    "C139_name_clash_refuted"
   ],
   "note": "Proved for map files whose lines have one or at least three tokens and where no 48-phone has the name of a removed phone; refuted otherwise: a line of two tokens removes its phone although it has a mapping to 48 phones, and a 48-phone named like a removed 60-phone is removed by the second mapping."
  },
  {
   "property": "C140",
   "status": "partial",
   "theorems": [
    "C140_phone_trans",
    "C140_prefix_partial",
    "C140_prefix_refuted",
    "C140_add_prefix"
   ],
   "note": "prepare_phone_trans.py is proved; the prefix is injective only when no excluded token begins with the prefix, refuted with a witness otherwise."
  },
  {
   "property": "C141",
   "status": "partial",
   "theorems": [
    "C141_ids",
    "C141_ids_injective",
    "C141_known",
    "C141_unknown_refuted",
    "C141_program"
   ],
   "note": "Numbering and known words are proved; an unknown word is not written as the unit 0: its name is taken character by character, so the utterance is dropped when a character of the name is not a phone."
  },
  {
   "property": "C142",
   "status": "partial",
   "theorems": [
    "C142_best_path_partial",
    "C142_best_path_refuted",
    "C142_no_repeat",
    "C142_spk_labels"
   ],
   "note": "The speaker labels are proved for every order of the set; the best path is the sequence of units only when no unit follows itself, a repeated unit is merged (refuted with every witness)."
  },
  {
   "property": "C143",
   "status": "partial",
   "theorems": [
    "C143_graph",
    "C143_missing",
    "C143_two_weights_refuted",
    "C143_four_tokens_refuted"
   ],
   "note": "Proved for files giving one weight per arc (set order irrelevant), KeyError without the special states. Refuted: two weights for one arc, four tokens."
  },
  {
   "property": "C144",
   "status": "partial",
   "theorems": [
    "C144_units",
    "C144_unit",
    "C144_too_many",
    "C144_pdf_mapping",
    "C144_left_over_refuted"
   ],
   "note": "Proved for configurations with two states or more and enough phones, IndexError with too few phones. Refuted: phones left over get no HMM."
  },
  {
   "property": "C145",
   "status": "proved",
   "theorems": [
    "C145_free",
    "C145_silence",
    "C145_free_sequences",
    "C145_silence_sequences",
    "C145_short_weights",
    "C145_no_phones"
   ],
   "note": "Complete weighted language, both modes, including the pdf mapping of the compiled graph and the refusals."
  },
  {
   "property": "C146",
   "status": "proved",
   "theorems": [
    "C146_lang",
    "C146_no_silence",
    "C146_short_line",
    "C146_trans",
    "C146_trans_unknown",
    "C146_recipe"
   ],
   "note": "Numbering, map, refusals, and the composition with timit-norm-trans.py."
  },
  {
   "property": "C147",
   "status": "proved",
   "theorems": [
    "C147_statistics",
    "C147_order",
    "C147_empty"
   ],
   "note": "Exact reals, one dimension."
  },
  {
   "property": "C148",
   "status": "proved",
   "theorems": [
    "C148_cut",
    "C148_unique"
   ],
   "note": ""
  },
  {
   "property": "C149",
   "status": "proved",
   "theorems": [
    "C149_fails_iff",
    "C149_table",
    "C149_transcriptions"
   ],
   "note": ""
  },
  {
   "property": "C150",
   "status": "partial",
   "theorems": [
    "C150_silences",
    "C150_pauses",
    "C150_add_sil_partial",
    "C150_double_silence_refuted"
   ],
   "note": "refuted with --add-sil: an utterance ending with a marker (or without words) gets two silences at its end; all the rest is proved"
  },
  {
   "property": "C151",
   "status": "partial",
   "theorems": [
    "C151_graph_alone",
    "C151_flat_on_uniform_graphs",
    "C151_flat_refuted",
    "C151_never_runs_refuted"
   ],
   "note": "The posteriors are those of the graph alone, independent of the data (C151_graph_alone). They are flat on graphs with the same weights everywhere, and not on left-to-right graphs (C151_flat_refuted). The script itself stops with a TypeError (C151_never_runs_refuted)."
  },
  {
   "property": "C152",
   "status": "partial",
   "theorems": [
    "C152_value_partial",
    "C152_constant_refuted",
    "C152_differences"
   ],
   "note": "The value is the expectation plus d/2 ln 2: the code subtracts d/2 ln(pi) instead of d/2 ln(2 pi). Differences between models are exact. The posteriors are finite mixtures of points."
  },
  {
   "property": "C153",
   "status": "proved",
   "theorems": [
    "C153_precision",
    "C153_weights",
    "C153_set"
   ],
   "note": "Posteriors are given by their moments, those of a distribution with finitely many values."
  },
  {
   "property": "C154",
   "status": "proved",
   "theorems": [
    "C154_regressors",
    "C154_causal",
    "C154_orthogonal",
    "C154_no_frames",
    "C154_no_memory",
    "C154_ellh"
   ],
   "note": ""
  },
  {
   "property": "C155",
   "status": "proved",
   "theorems": [
    "C155_sound",
    "C155_exact",
    "C155_left_to_right",
    "C155_ranking_needed"
   ],
   "note": "The general condition is that no compiled self-transition is one (C155_exact, see also C104); it holds for left-to-right graphs (C155_left_to_right), and C155_ranking_needed is a normalised graph of another shape whose compiled graph has no path at all."
  },
  {
   "property": "C156",
   "status": "partial",
   "theorems": [
    "C156_forced_alignment",
    "C156_too_short_refuted",
    "C156_units",
    "C156_files",
    "C156_stops",
    "C156_empty_transcription_refuted",
    "C156_align_loop",
    "C156_missing_features"
   ],
   "note": "Forced alignments are accepted by the transcription whenever some accepted sequence has as many frames (C156_forced_alignment, with left-to-right units: C156_units); files written and loops: C156_files, C156_stops, C156_align_loop. Refuted: an utterance which is too short is given a sequence outside of its transcription without any error (C156_too_short_refuted), and prepare-alignments.py writes graphs without states for empty transcriptions (C156_empty_transcription_refuted)."
  },
  {
   "property": "C157",
   "status": "proved",
   "theorems": [
    "C157_energy",
    "C157_delay",
    "C157_tone"
   ],
   "note": "Exact reals; rfft is modelled by its definition (Fe_Model.dft_re, dft_im), for frames not longer than the transform (C51_fft_len)."
  },
  {
   "property": "C158",
   "status": "proved",
   "theorems": [
    "C158_coefficients",
    "C158_volume",
    "C158_short"
   ],
   "note": "For filters at least one bin wide (otherwise the bank itself is wrong: C99). The reals are exact; the 32-bit rounding of the signal (line 183) is not modelled."
  },
  {
   "property": "C159",
   "status": "partial",
   "theorems": [
    "C159_features",
    "C159_offset",
    "C159_mean",
    "C159_short",
    "C159_without_filters_refuted",
    "C159_zero_filters_refuted",
    "C159_source",
    "C159_command",
    "C159_program",
    "C159_unknown_setting"
   ],
   "note": "Violated: without filter bank the cosine transform raises ValueError unless the number of bins happens to be the number of filters (C159_without_filters_refuted). Signals shorter than one frame stop the program if there are derivatives (C159_short). Filters narrower than a bin are the subject of C99."
  },
  {
   "property": "C160",
   "status": "partial",
   "theorems": [
    "C160_list",
    "C160_decoding_graph",
    "C160_missing_group_refuted"
   ],
   "note": "Proved with the silence unit and at least one other unit: C160_decoding_graph composes the script with mkphones and mkdecodegraph (Gb_Model). C160_missing_group_refuted: without the option --non-speech-unit, or with no other unit, mkphones fails on the two-group configurations of the recipes."
  },
  {
   "property": "C161",
   "status": "proved",
   "theorems": [
    "C161_files",
    "C161_no_silence",
    "C161_unreadable",
    "C161_agrees"
   ],
   "note": "C161_no_silence and C161_unreadable give the exceptions."
  },
  {
   "property": "C162",
   "status": "proved",
   "theorems": [
    "C162_set",
    "C162_program",
    "C162_unpaired",
    "C162_positional"
   ],
   "note": "Attributes, indices, conversions and format specifications in fields are not modelled."
  },
  {
   "property": "C163",
   "status": "proved",
   "theorems": [
    "C163_step",
    "C163_training",
    "C163_update"
   ],
   "note": "C163_step: the step succeeds, keeps the parameters proper and does not decrease the bound; C163_update: what the step does to each component; C163_training: any number of steps. The graph is fixed: the phone weights of a PhoneLoop are not part of this claim. The value printed by the objective is not this bound (it leaves out the entropy of the state path, see C80)."
  },
  {
   "property": "C164",
   "status": "partial",
   "theorems": [
    "C164_step_partial",
    "C164_weights_update",
    "C164_unchanged_first_partial",
    "C164_unchanged_first_training_partial",
    "C164_one_first_phone_partial",
    "C164_one_first_phone_training_partial",
    "C164_creation",
    "C164_refuted"
   ],
   "note": "C164_refuted: one step on a loop just created makes the bound smaller: accumulate adds the responsibilities of the first frame to the phone counts although the initial probabilities never depend on the weights. C164_step_partial: the step succeeds, keeps the state good, and the bound loses at most the expected first phones times the change of their expected log-weights. C164_unchanged_first(_training)_partial: no decrease when the weights are not updated or all utterances come with alignments. C164_one_first_phone(_training)_partial: when only one state is initial, the bound of the loop whose first phone is drawn with the weights as well never decreases. C164_weights_update: the exact new weights; C164_creation: the transitions of a new loop. Missing: loops with several initial states, for which neither bound is shown to grow; stick-breaking weights."
  },
  {
   "property": "C165",
   "status": "partial",
   "theorems": [
    "C165_objective_is_the_bound",
    "C165_full_step_is_best",
    "C165_full_step",
    "C165_same_order_partial",
    "C165_refuted"
   ],
   "note": "Proved for learning rate one, and for any rate when the order stays the same; C165_refuted: with rate 1/2 and a change of order the objective decreases (the order is replaced at once while the sticks move half-way)."
  },
  {
   "property": "C166",
   "status": "partial",
   "theorems": [
    "C166_reported_minus_bound",
    "C166_reported_exceeds_bound",
    "C166_full_step",
    "C166_refuted"
   ],
   "note": "The step and the invariant are proved (C166_full_step). The last sentence is refuted: the value reported always exceeds the bound, by the divergence of the concentration (its parameter is missing from mean_field_factorization) plus n (ln E[g] - E[ln g]), and C166_refuted gives a step where it decreases while the bound grows."
  },
  {
   "property": "C167",
   "status": "proved",
   "theorems": [
    "C167_objective_is_the_bound",
    "C167_objective_with_hyper_prior",
    "C167_step",
    "C167_training",
    "C167_update"
   ],
   "note": "C167_step and C167_training: success, properness and monotonicity; C167_update: what the step does; C167_objective_is_the_bound: what is reported. With a hyper-prior the reported value exceeds the bound (C167_objective_with_hyper_prior). Stick-breaking weights with a learning rate below one are out of scope since the bound can decrease (C165_refuted)."
  },
  {
   "property": "C168",
   "status": "partial",
   "theorems": [
    "C168_reported_minus_bound",
    "C168_refuted"
   ],
   "note": "Refuted: the labelled path leaves out the expected log-weights of the labels (C168_reported_minus_bound gives the exact difference) although accumulate counts the labels in the weights; C168_refuted is a step that makes the reported value smaller. The bound itself does not decrease (C167_step covers labelled frames)."
  },
  {
   "property": "C169",
   "status": "proved",
   "theorems": [
    "C169_step",
    "C169_training",
    "C169_update",
    "C169_objective",
    "C169_objective_on_given_paths"
   ],
   "note": "C169_step, C169_training: success, properness, monotonicity; C169_update: the statistics, with the paths they are collected on; C169_objective: what is reported. Utterances with a state number not below their number of frames are excluded since the inference raises IndexError on them (C72)."
  },
  {
   "property": "C170",
   "status": "proved",
   "theorems": [
    "C170_categorical",
    "C170_diagonal_normal",
    "C170_isotropic_normal"
   ],
   "note": "C170_categorical, C170_diagonal_normal, C170_isotropic_normal. The full covariance is not included (its evidence is a matrix-variate expression). The whole data set is one batch."
  },
  {
   "property": "C171",
   "status": "proved",
   "theorems": [
    "C171_step",
    "C171_weights_update",
    "C171_unchanged_first_training",
    "C171_one_first_phone_training",
    "C171_creation",
    "C171_mkphoneloop",
    "C171_bound_may_decrease"
   ],
   "note": "C171_step, C171_weights_update, C171_unchanged_first_training, C171_one_first_phone_training, C171_creation, C171_mkphoneloop; C171_bound_may_decrease shows that the loss allowed by C171_step happens. Partial learning rates for stick-breaking weights are refuted by C165_refuted. The whole data set is one batch."
  },
  {
   "property": "C172",
   "status": "proved",
   "theorems": [
    "C172_set_update",
    "C172_step",
    "C172_training",
    "C172_creation",
    "C172_mkphoneloop",
    "C172_mkphoneloopbigram",
    "C172_alignments_fail"
   ],
   "note": "Bg_Model.v is the bigram loop with either kind of set; the step theorem (good state kept, utterances kept possible, bound) is proved for both kinds and specialised to sticks, where the row read is the row updated. The order of the root is not updated by training (its callback is commented out in the code). Failures with alignments are NotImplementedError (a RuntimeError)."
  },
  {
   "property": "C173",
   "status": "partial",
   "theorems": [
    "C173_step_partial",
    "C173_emissions_training_partial",
    "C173_refuted"
   ],
   "note": "False in the code: C173_refuted is a two-phone loop with one possible path, for which one step with learning rate one decreases the bound. Proved: what a step can lose is exactly bounded by the difference between the gain of the rows updated and of the rows read (C173_step_partial), and training the emissions only never decreases the bound."
  },
  {
   "property": "C174",
   "status": "proved",
   "theorems": [
    "C174_round",
    "C174_training",
    "C174_any_split",
    "C174_without_state"
   ],
   "note": "C174_round, C174_training (all pairs of rounds), C174_any_split, C174_without_state. The refinement connects the command model (Opt_Model) on flat vectors to the training model (Vt_Model). Emissions only (an HMM has no trained transitions); phone-loops have weights as well (C164, C165, C171, C172). No alignments; NaN values are not modelled."
  },
  {
   "property": "C175",
   "status": "proved",
   "theorems": [
    "C175_categorical",
    "C175_diagonal_normal",
    "C175_isotropic_normal",
    "C175_full_normal"
   ],
   "note": "C175_categorical, C175_diagonal_normal, C175_isotropic_normal (objective against the evidence of C170), C175_full_normal (bound against the full update's). The whole data set is one batch."
  },
  {
   "property": "C176",
   "status": "proved",
   "theorems": [
    "C176_round",
    "C176_training",
    "C176_any_split",
    "C176_without_state"
   ],
   "note": "C176_round, C176_training (all pairs of rounds), C176_any_split, C176_without_state. Refinement of the command model (Opt_Model) to the training of C171 (Pw_Model). The update of the weights inside the optimiser step is the one of Mx_Model, applied to the statistics the optimiser stores. Learning rate one is required for the stick-breaking weights (as in C171). Bigram loops: C177."
  },
  {
   "property": "C177",
   "status": "proved",
   "theorems": [
    "C177_round",
    "C177_training",
    "C177_any_split",
    "C177_without_state",
    "C177_alignments_fail"
   ],
   "note": "C177_round, C177_training (all pairs of rounds), C177_any_split, C177_without_state, C177_alignments_fail. Refinement of the command model (Opt_Model) to the training of C172 and C173 (Bg_Model). The update of the set inside the optimiser step is the one of Bg_Model, applied to the statistics the optimiser stores. The logged value leaves out the root of an SBCategoricalSet. That a round with Dirichlet distributions may decrease the bound is C173."
  },
  {
   "property": "C178",
   "status": "proved",
   "theorems": [
    "C178_loop",
    "C178_unigram",
    "C178_bigram",
    "C178_unigram_training",
    "C178_bigram_training",
    "C178_one_start",
    "C178_aud_frames",
    "C178_aud_size",
    "C178_aud_training"
   ],
   "note": "C178_loop: the four commands succeed and the loop's language is exact. C178_unigram and C178_bigram: every loop made is ready for training. C178_unigram_training and C178_bigram_training: rounds succeed, bound non-decreasing (HDP; aligned data; or one initial state). C178_one_start: one initial state when one unit may begin and topologies have no dead end. C178_aud_frames, C178_aud_size, C178_aud_training: the shipped recipe. Example C178_ex: silence and one unit, eight Gaussians, two utterances, two rounds."
  },
  {
   "property": "C179",
   "status": "proved",
   "theorems": [
    "C179_emissions",
    "C179_content",
    "C179_scores",
    "C179_unigram_training",
    "C179_bigram_training",
    "C179_aud_training",
    "C179_constant_refuted",
    "C179_mixed_refuted"
   ],
   "note": "C179_emissions: creation succeeds, one emission per emitting state, distinct parameters, proper, one group. C179_content: the values of all the parameters. C179_scores: when a frame can be scored, exactly. C179_unigram_training, C179_bigram_training, C179_aud_training: the whole chain of commands succeeds, bound non-decreasing. C179_constant_refuted (constant feature) and C179_mixed_refuted (different covariance types) show that the hypotheses are needed. The emissions are created after the HMMs of all the groups instead of after each group."
  },
  {
   "property": "C180",
   "status": "proved",
   "theorems": [
    "C180_round",
    "C180_loop",
    "C180_equal_lengths",
    "C180_lower_bound_refuted",
    "C180_one_state",
    "C180_decrease_refuted"
   ],
   "note": "The claim includes the two refutations of reading the printed value as the evidence lower bound: C180_lower_bound_refuted and the witness C180_decrease_refuted. The rounding to three decimals is not modelled."
  },
  {
   "property": "C181",
   "status": "proved",
   "theorems": [
    "C181_bigram",
    "C181_equal_lengths",
    "C181_root"
   ],
   "note": "bigram version of C180 (kills the mutant of bset_kl that survived C177); rounding of the printed value not modelled"
  },
  {
   "property": "C182",
   "status": "partial",
   "theorems": [
    "C182_loop",
    "C182_alignment",
    "C182_unigram_training",
    "C182_bigram_training",
    "C182_aud",
    "C182_reentry_refuted"
   ],
   "note": "Proved for the units whose first state is entered once (all the recipes': C182_loop, C182_alignment, C182_unigram_training, C182_bigram_training, C182_aud); refuted for a unit that comes back to its first state (C182_reentry_refuted: one occurrence written twice)"
  },
  {
   "property": "C183",
   "status": "partial",
   "theorems": [
    "C183_variance",
    "C183_unigram",
    "C183_bigram",
    "C183_aud",
    "C183_constant_refuted"
   ],
   "note": "Proved for archives without constant feature and units whose first state is entered once (C183_unigram, C183_bigram, C183_aud, C183_variance); C183_constant_refuted: RuntimeError with full covariances for a constant feature (diagonal: C179_constant_refuted). Exact reals: the cancellation that makes the computed variance of a nearly constant feature negative in single precision is not modelled."
  },
  {
   "property": "C184",
   "status": "proved",
   "theorems": [
    "C184_numbers",
    "C184_numbers_update",
    "C184_unigram",
    "C184_bigram",
    "C184_round",
    "C184_bigram_round",
    "C184_loop",
    "C184_aud"
   ],
   "note": "No check for such utterances is in the code, and no error is raised: C184_round says what the round does to the model. C184_loop characterises them for a phone-loop: no sequence of units it allows has that many frames. C184_aud: three frames are enough and needed for the loops of the recipes. Infinite values and the rounds after the one in which NaN appears are not modelled. For an alignment graph the emissions must all be in the graph; if they are not, those outside it get zeros instead of NaN, which is not stated."
  },
  {
   "property": "C185",
   "status": "partial",
   "theorems": [
    "C185_values_partial",
    "C185_last_frame_refuted",
    "C185_impossible",
    "C185_unigram_training_partial",
    "C185_bigram_training_partial",
    "C185_aud_partial"
   ],
   "note": "The states are right (C185_values_partial). The units are not: posts[:, start:end] leaves the last state of each unit out, because end_pdf is the index of that state and not the one after it. C185_values_partial says what the columns are, and that they sum to one less the probability of the last states; C185_last_frame_refuted: the last frame of every utterance is zero for every unit. C185_impossible: NaN. The acoustic scale multiplies the statistics, as in C17. Utterances with a transcription graph are not in the claim (the command does not use them). The reading of the list of utterances and the .npy files are not modelled."
  },
  {
   "property": "C186",
   "status": "proved",
   "theorems": [
    "C186_training",
    "C186_short",
    "C186_frames",
    "C186_recipe"
   ],
   "note": "C186_training for any left-to-right configuration, C186_frames and C186_recipe for the topologies of the recipes, C186_short for the utterances that are too short. decode.py:54 is assumed to read the graphs back (numpy before 1.16.3)"
  },
  {
   "property": "C187",
   "status": "proved",
   "theorems": [
    "C187_bounded",
    "C187_priors",
    "C187_converges",
    "C187_stops"
   ],
   "note": "Boundedness: every expected log-weight is at most 0, so an emission is at most a constant plus the sum over the leaf components of the positive parts of their expected log-likelihoods; the conjugate optimum (C41) of every subset of the frames bounds each component. Convergence then follows from C163 and C187_priors. Same model of training as C163 (exact arithmetic)."
  },
  {
   "property": "C188",
   "status": "proved",
   "theorems": [
    "C188_bounded",
    "C188_aligned_converges",
    "C188_one_first_phone_converges",
    "C188_bigram_bounded",
    "C188_bigram_converges"
   ],
   "note": "The transitions between phones are at most 1 because expected log-weights are at most 0, the divergence of the weights is non-negative for the three models of the weights and for both sets of the bigram loops, and the emissions are bounded as in C187; convergence then follows from C171 and C172. Nothing is claimed for the loops whose bound may decrease (C171_bound_may_decrease, C173)."
  },
  {
   "property": "C189",
   "status": "proved",
   "theorems": [
    "C189_bounded",
    "C189_converges"
   ],
   "note": "Boundedness: expected log-weights are at most 0 and the components are bounded as in C187; convergence then follows from C167 and the fact that a step never changes a prior. Exact arithmetic, as for C167."
  },
  {
   "property": "C190",
   "status": "proved",
   "theorems": [
    "C190_hmm",
    "C190_loop"
   ],
   "note": "The rounds are steps of training by C174 and C176, whose bounds converge by C187 and C188. Nothing is claimed for the loops whose bound may decrease (C171_bound_may_decrease)."
  },
  {
   "property": "C191",
   "status": "proved",
   "theorems": [
    "C191_bigram_rounds",
    "C191_unigram",
    "C191_bigram",
    "C191_aud",
    "C191_monophone"
   ],
   "note": "The initial model satisfies the hypotheses of C190 by C178 and C179; C191_bigram_rounds is the counterpart of C190 for bigram loops. Exact arithmetic and the simplifications of Ch_Model.v and Mo_Model.v."
  },
  {
   "property": "C192",
   "status": "proved",
   "theorems": [
    "C192_gain",
    "C192_others",
    "C192_settles"
   ],
   "note": "With exact arithmetic, on the training of Vt_Model.v. gain_exact in Gn_Proofs.v is the identity behind it: rate * gain = KL(old || new) + (1 - rate) KL(new || old) for each component. It does not say that the posteriors themselves converge."
  },
  {
   "property": "C193",
   "status": "partial",
   "theorems": [
    "C193_share",
    "C193_again",
    "C193_commands",
    "C193_leftover_refuted"
   ],
   "note": "C193_leftover_refuted: with files left in the split directory by a run with more jobs, or whose numbers have another width, ls counts them and the pattern matches them, so utterances are read twice. The position of the cuts of split is any order preserving function; the scheduler is assumed to run each task once."
  },
  {
   "property": "C194",
   "status": "partial",
   "theorems": [
    "C194_resume",
    "C194_failure_refuted",
    "C194_njobs_refuted",
    "C194_more_epochs_refuted"
   ],
   "note": "C194_resume proves the first part. C194_failure_refuted: the status of submit_parallel.sh is that of its last test, so a failed job is ignored and the model is trained without its utterances. C194_njobs_refuted: the files of the interrupted run are used again. C194_more_epochs_refuted: killed between the last update and the copy, final.mdl stays that of the shorter training. Interruptions are between file operations; optim_state.pth is left out."
  },
  {
   "property": "C195",
   "status": "partial",
   "theorems": [
    "C195_resume",
    "C195_hmm",
    "C195_loop",
    "C195_groups_refuted"
   ],
   "note": "C195_resume: any training whose rounds do not depend on the sharing and whose updates do not depend on the state of the optimizer; C195_hmm and C195_loop: the commands on an HMM and on a phone-loop with one group of parameters.  C195_groups_refuted: with two groups the claim is false, the model is written before the state.  Examples C195_ex, C195_ex_groups.  A kill in the middle of the writing of a file is not modelled."
  },
  {
   "property": "C196",
   "status": "partial",
   "theorems": [
    "C196_decode",
    "C196_killed_refuted",
    "C196_failure_refuted",
    "C196_njobs_refuted"
   ],
   "note": "C196_decode: killed anywhere but while trans is being written.  C196_killed_refuted: the shell makes the file trans before sort writes it, killed there it stays empty and the step is skipped from then on.  C196_failure_refuted: a job that fails does not stop the step, the utterances after it are missing.  C196_njobs_refuted: started again with fewer jobs, the files of the first run are still there and utterances appear twice.  Example C196_ex."
  },
  {
   "property": "C197",
   "status": "partial",
   "theorems": [
    "C197_fresh",
    "C197_mapping_refuted",
    "C197_stale_refuted"
   ],
   "note": "C197_fresh: a new directory.  C197_mapping_refuted: line 39 tests a file of the root directory because of a misspelt variable, so the mapping is always made again and --au-mapping has no effect.  C197_stale_refuted: results that are in the directory are printed whatever the alignments.  Example C197_ex.  The python programs are functions here."
  },
  {
   "property": "C198",
   "status": "proved",
   "theorems": [
    "C198_gain",
    "C198_settles"
   ],
   "note": "C198_gain: one step.  C198_settles: endless training.  The moves of stick-breaking weights, whose order changes, are not counted.  Example C198_ex."
  },
  {
   "property": "C199",
   "status": "proved",
   "theorems": [
    "C199_gain",
    "C199_aligned",
    "C199_one_first_phone",
    "C199_aligned_settles",
    "C199_one_first_phone_settles"
   ],
   "note": "C199_gain: one step, in general.  C199_aligned, C199_one_first_phone: one step of the two kinds.  C199_aligned_settles, C199_one_first_phone_settles: endless training.  The moves of stick-breaking weights, whose order changes, are not counted.  Without the two conditions the bound itself may decrease (C171_bound_may_decrease).  Example C199_ex."
  },
  {
   "property": "C200",
   "status": "proved",
   "theorems": [
    "C200_hmm",
    "C200_loop"
   ],
   "note": "C200_hmm: HMMs.  C200_loop: phone-loops of the two kinds of C199.  The moves of stick-breaking weights are not counted.  Example C200_ex."
  },
  {
   "property": "C201",
   "status": "partial",
   "theorems": [
    "C201_resume",
    "C201_skips",
    "C201_state_refuted",
    "C201_final_refuted",
    "C201_failure_refuted"
   ],
   "note": "C201_resume: true when no kill falls between E.mdl and gsm_optim_state.pth (but for the last epoch) nor between the three final files, and the model written by `hmm update` does not depend on the saved optimizer state (one group, see C195).  C201_state_refuted: killed after E.mdl and before gsm_optim_state.pth, the next epoch starts with the Adam state of the epoch before and the final model differs.  C201_final_refuted: killed after final.mdl, gsm_final.mdl and units_posts_final.pkl are never made (C201_skips), though a later subspace_aud.sh reads gsm_final.mdl.  C201_failure_refuted: the status of the pipe is that of tee, so a failing `hmm update` lets the recipe train on the tmp.mdl of the epoch before and end with success.  Example C201_ex."
  },
  {
   "property": "C202",
   "status": "partial",
   "theorems": [
    "C202_one_group",
    "C202_starved",
    "C202_groups_refuted",
    "C202_race_refuted"
   ],
   "note": "C202_one_group: true for every schedule when the models have one group of parameters (those of the recipes do, see C195).  C202_starved: with several groups and the languages in turn, the counter goes from one language to the next; when the number of groups divides the number of languages each language only ever updates one of its groups; C202_groups_refuted: two languages, two groups.  C202_race_refuted: with two groups the models, the order of the list and the saved state depend on the schedule.  An operation on a file is atomic.  Examples C202_ex, C202_ex_starved."
  },
  {
   "property": "C203",
   "status": "partial",
   "theorems": [
    "C203_resume",
    "C203_stuck",
    "C203_skips",
    "C203_lang_refuted",
    "C203_state_refuted",
    "C203_jobs_refuted",
    "C203_final_refuted"
   ],
   "note": "C203_resume: true when no kill falls between E.mdl and E.mdl_LANG, between E.mdl_LANG and hgsm_optim_state.pth (but for the last epoch) nor between the final files, and the model written by `hmm update` does not depend on the saved state (one group, see C195).  C203_lang_refuted: killed between E.mdl and E.mdl_LANG, the next epoch has no model to accumulate with, the failures are ignored, the tmp.mdl of the epoch before is trained and the recipe ends with success.  C203_state_refuted: as C201_state_refuted.  C203_jobs_refuted: .done.acc is made although the jobs failed, and no later run accumulates again (C203_stuck).  C203_final_refuted: killed after final.mdl, the other final files are never made (C203_skips).  Example C203_ex."
  },
  {
   "property": "C204",
   "status": "partial",
   "theorems": [
    "C204_archive",
    "C204_skips",
    "C204_failure_refuted"
   ],
   "note": "C204_archive: true when the program does not fail on an utterance of the list (utterances without data are skipped) and one utterance has data; unlike decode.sh (C196_njobs_refuted) the files left by runs with other numbers of jobs do not matter.  C204_failure_refuted: the program fails once, the utterances after it in its job are missing, the recipe ends with success and no later run completes the archive (C204_skips).  The tasks run one after the other in any order; zip is atomic.  Example C204_ex."
  },
  {
   "property": "C205",
   "status": "partial",
   "theorems": [
    "C205_archive",
    "C205_skips",
    "C205_kill_refuted",
    "C205_list_refuted",
    "C205_failure_refuted",
    "C205_key_refuted"
   ],
   "note": "C205_archive: true when the program does not fail, no two lines have the same utterance, the list does not change and no run is killed while the archive is written.  Each condition is needed: C205_kill_refuted (the archive is written in place, a partial one is never completed, C205_skips), C205_list_refuted (an utterance taken out of the list is in the archive), C205_failure_refuted (a job that fails leaves utterances out for good), C205_key_refuted.  The tasks run one after the other in any order; a file UTT.npy is made, then filled, and a run can be killed in between.  Example C205_ex."
  },
  {
   "property": "C206",
   "status": "partial",
   "theorems": [
    "C206_lists",
    "C206_grows",
    "C206_archived_refuted",
    "C206_partial_refuted"
   ],
   "note": "C206_lists and C206_grows: true when the program does not fail on a line of the lists and no two lines of the lists have the same utterance.  C205_list_refuted shows that utterances taken out of the list can stay, C206_partial_refuted that their files can be partial.  C206_archived_refuted: once the archive is made, utterances added to the list are never in it.  Example C206_ex."
  }
 ]
}