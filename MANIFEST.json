{
 "claims": [
  {
   "property": "C01",
   "status": "proved",
   "theorems": [
    "C01_batch_execute_selects",
    "C01_batch_execute_count",
    "C01_batch_execute_fair",
    "C01_batch_execute_rate"
   ],
   "note": "Selection, count, fairness and rate of batch_execute, for all n, b, t and windows."
  },
  {
   "property": "C02",
   "status": "proved",
   "theorems": [
    "C02_passed_decay_per_iteration",
    "C02_default_decay_per_update",
    "C02_runs_exist",
    "C02_covariance_schedule",
    "C02_inverse_schedule",
    "C02_step_uses_current_inverse"
   ],
   "note": "Stated over infinite runs of the minimize op from freshly initialised variables, for every scheduler choice between the unordered covariance and damping groups; one replica, gradients/statistics/inversion as arbitrary functions. The decay theorems give the weights of all statistics in closed form, for every interval, burn-in and number of steps."
  },
  {
   "property": "C03",
   "status": "proved",
   "theorems": [
    "C03_burnin_only_covariances",
    "C03_then_full_steps"
   ],
   "note": "Same runs as C02; the burn-in average is the value the estimator reads (normalised moving average)."
  },
  {
   "property": "C04",
   "status": "proved",
   "theorems": [
    "C04_next_op_blocks_are_permutations",
    "C04_next_op_counts",
    "C04_next_op_gap"
   ],
   "note": "For every random stream of the shuffle buffer."
  },
  {
   "property": "C05",
   "status": "proved",
   "theorems": [
    "C05_kth_draw",
    "C05_no_draw_lost",
    "C05_async_fair",
    "C05_async_stop"
   ],
   "note": "Every number of workers and every interleaving of their loop steps and the stop request."
  },
  {
   "property": "C06",
   "status": "proved",
   "theorems": [
    "C06_cov_placement",
    "C06_inv_placement",
    "C06_trans_placement",
    "C06_no_devices_no_placement",
    "C06_loads_balanced"
   ],
   "note": "Covariance, inverse and transformation placement; absent or empty device lists; load balance."
  },
  {
   "property": "C07",
   "status": "proved",
   "theorems": [
    "C07_map_gather_unreplicated",
    "C07_map_gather_replicated",
    "C07_map_gather_transparent",
    "C07_thunk_runs_once",
    "C07_loads_balanced",
    "C07_all_sum",
    "C07_all_average"
   ],
   "note": "Unreplicated, TPU-replicated and other strategies; TF-Replicator's own map_gather is external."
  },
  {
   "property": "C08",
   "status": "partial",
   "theorems": [
    "C08_replica_inverses_partial",
    "C08_replica_inverses_refuted",
    "C08_no_inverse_variables_raises"
   ],
   "note": "REFUTED for factors that write inverse-related variables they do not expose (SUA convolution factor), and construction raises when no factor has inverse variables; the partial theorem covers all factors whose update writes exactly what get_inv_vars returns."
  },
  {
   "property": "C09",
   "status": "proved",
   "theorems": [
    "C09_column_is_concatenation",
    "C09_roundtrip_tensors",
    "C09_roundtrip_column"
   ],
   "note": "Arbitrary shapes including scalars and empty dimensions; the empty list is rejected by the concat op."
  },
  {
   "property": "C10",
   "status": "proved",
   "theorems": [
    "C10_roundtrip_params",
    "C10_roundtrip_matrix",
    "C10_matrix_entries"
   ],
   "note": "Weights alone and (weights, bias); IndexedSlices pass through unchanged."
  },
  {
   "property": "C11",
   "status": "proved",
   "theorems": [
    "C11_latest_assignment_wins",
    "C11_sequence_lookup",
    "C11_sequence_assignment",
    "C11_set_get"
   ],
   "note": "Nested sequence keys and every history of assignments."
  },
  {
   "property": "C12",
   "status": "proved",
   "theorems": [
    "C12_accepted_iff_consistent",
    "C12_rejected_with_ValueError",
    "C12_shape_is_shape_of_concatenation",
    "C12_equality",
    "C12_device"
   ],
   "note": "Static batch sizes may be unknown."
  },
  {
   "property": "C13",
   "status": "proved",
   "theorems": [
    "C13_factor_covariance",
    "C13_factor_plain_mean",
    "C13_sua_covariance",
    "C13_weighted_mean",
    "C13_constant_data",
    "C13_convex_hull",
    "C13_total_positive",
    "C13_reset_forgets",
    "C13_unnormalized"
   ],
   "note": "Coordinatewise over exact reals; zero total weight gives no value (division by zero)."
  },
  {
   "property": "C14",
   "status": "proved",
   "theorems": [
    "C14_every_history_decomposes",
    "C14_mean_since_reset",
    "C14_read_value_and_reset"
   ],
   "note": "Every history of accumulate, reset, read-and-reset."
  },
  {
   "property": "C15",
   "status": "proved",
   "theorems": [
    "C15_valid_1d",
    "C15_same_1d",
    "C15_valid_2d",
    "C15_same_2d",
    "C15_default_strides",
    "C15_malformed_rejected"
   ],
   "note": "VALID with filters larger than input+1 is excluded (the convolution itself is rejected there)."
  },
  {
   "property": "C16",
   "status": "proved",
   "theorems": [
    "C16_members_are_ancestors"
   ],
   "note": "Any finite graph including cycles; bounded iteration count."
  },
  {
   "property": "C17",
   "status": "proved",
   "theorems": [
    "C17_variable_uses_counts_real_consumers",
    "C17_not_a_variable"
   ],
   "note": "Relay edges acyclic; Python's recursion limit is idealised."
  },
  {
   "property": "C18",
   "status": "proved",
   "theorems": [
    "C18_entries",
    "C18_roundtrip",
    "C18_roundtrip_back",
    "C18_malformed_rejected",
    "C18_same_convolution"
   ],
   "note": "Filters over exact reals."
  },
  {
   "property": "C19",
   "status": "proved",
   "theorems": [
    "C19_no_variable_in_two_blocks",
    "C19_overlap_rejected",
    "C19_duplicate_rejected"
   ],
   "note": "All histories of all registration calls, including raising ones."
  },
  {
   "property": "C20",
   "status": "proved",
   "theorems": [
    "C20_success_creates_or_adds_one_tower",
    "C20_separable_registers_both_parts",
    "C20_reuse_of_unregistered_raises",
    "C20_reuse_with_other_type_raises",
    "C20_auto_reuse",
    "C20_towers_are_the_successful_registrations"
   ],
   "note": "Single-layer calls; the tower-list theorem ranges over all histories of calls other than the partially failing ones of C28."
  },
  {
   "property": "C21",
   "status": "proved",
   "theorems": [
    "C21_finalized_calls_raise",
    "C21_finalized_is_frozen",
    "C21_finalize_needs_a_loss_and_runs_once"
   ],
   "note": "All histories after finalisation; define_linked_parameters and the default setters remain allowed but touch neither blocks nor losses."
  },
  {
   "property": "C22",
   "status": "proved",
   "theorems": [
    "C22_check_accepts_exactly"
   ],
   "note": "Histories without partially failing calls (C28), earlier checks (C23) or zero-use multi registrations."
  },
  {
   "property": "C23",
   "status": "partial",
   "theorems": [
    "C23_check_repeatable_refuted",
    "C23_check_repeatable_partial"
   ],
   "note": "REFUTED: check_registration inserts zero entries for unregistered variables, so a failed check makes a later correct check fail; and a list with duplicates passes while omitting a registered variable. The _partial theorem: a passing check changes nothing, repeating the same check repeats its answer."
  },
  {
   "property": "C24",
   "status": "proved",
   "theorems": [
    "C24_approximation_selection",
    "C24_selection_exists_unique",
    "C24_known_approximations",
    "C24_set_default_checks_table",
    "C24_linking_accepts_exactly",
    "C24_linked_groups_disjoint"
   ],
   "note": "Explicit > linked > default for all reachable collections; linking accepted exactly when allowed."
  },
  {
   "property": "C25",
   "status": "proved",
   "theorems": [
    "C25_one_coefficient_per_name",
    "C25_registration_accepts_exactly",
    "C25_towers_count_registrations",
    "C25_total_loss"
   ],
   "note": "All loss registration histories; total loss for every coefficient mode."
  },
  {
   "property": "C26",
   "status": "proved",
   "theorems": [
    "C26_factors_shared_exactly"
   ],
   "note": "All request histories; unhashable requests raise TypeError."
  },
  {
   "property": "C27",
   "status": "partial",
   "theorems": [
    "C27_default_scoped_refuted",
    "C27_default_scoped_partial"
   ],
   "note": "REFUTED: as_default has no try/finally, so a raising body leaves its collection installed and the next as_default raises. The _partial theorem covers bodies that end normally."
  },
  {
   "property": "C28",
   "status": "partial",
   "theorems": [
    "C28_failed_call_unchanged_refuted",
    "C28_failed_call_unchanged_partial"
   ],
   "note": "REFUTED: separable convolutions, index inputs with weight/bias pairs and multi-use layers with unequal lists leave a half-registered layer behind. The _partial theorem: every other call is all-or-nothing."
  },
  {
   "property": "C29",
   "status": "partial",
   "theorems": [
    "C29_accepts_exactly_legal",
    "C29_rejects_with_value_error",
    "C29_rejects_before_variables_refuted",
    "C29_rejects_before_variables_partial"
   ],
   "note": "Acceptance and the exception are proved for all options. REFUTED: 'before any variable is created' - with adapt_damping=True the damping variable is created before the train_batch and learning-rate checks; proved without adapt_damping."
  },
  {
   "property": "C30",
   "status": "proved",
   "theorems": [
    "C30_regular_closed_form",
    "C30_regular_step",
    "C30_no_momentum",
    "C30_adam_closed_form",
    "C30_adam_step"
   ],
   "note": "All histories; the closed form of the parameters is stated without weight decay, the single-step theorems include it. One replica."
  },
  {
   "property": "C31",
   "status": "proved",
   "theorems": [
    "C31_regular_clip",
    "C31_adam_clip",
    "C31_clip_is_tight"
   ],
   "note": "For gradients with <g, P g> >= 0 (implied by a positive definite P)."
  },
  {
   "property": "C32",
   "status": "proved",
   "theorems": [
    "C32_rule",
    "C32_bounds_immediate",
    "C32_bounds_delayed"
   ],
   "note": "Rule and bounds over all runs in immediate and delayed mode; float NaN/inf of the ratio included."
  },
  {
   "property": "C33",
   "status": "partial",
   "theorems": [
    "C33_immediate_timing",
    "C33_delayed_timing",
    "C33_no_adaptation",
    "C33_prediction_matches_update_refuted",
    "C33_prediction_clipped_adam_refuted",
    "C33_prediction_default_adam_refuted",
    "C33_prediction_regular_partial",
    "C33_prediction_adam_partial"
   ],
   "note": "Timing and loss pairs proved in both modes. REFUTED: the recorded prediction is not for the applied update with use_weight_decay, in clipped adam mode, and in adam mode with the default that excludes damping; proved for the remaining cases."
  },
  {
   "property": "C34",
   "status": "partial",
   "theorems": [
    "C34_qmodel_optimal_partial",
    "C34_qmodel_fixedmu_optimal_partial",
    "C34_qmodel_optimal_refuted"
   ],
   "note": "REFUTED when the gradient is orthogonal to a non-zero previous update (the zero-previous-update shortcut is then taken); proved otherwise, including the reported change and its sign."
  },
  {
   "property": "C35",
   "status": "partial",
   "theorems": [
    "C35_prediction_matches_step_refuted",
    "C35_zero_previous_update_partial",
    "C35_qmodel_prediction_partial"
   ],
   "note": "REFUTED: the shortcut tests <gradient, previous update> = 0, not previous update = 0; with fixed mu the prediction then differs from the model value of the applied step. Proved when the previous update is zero, and for the prediction in qmodel mode."
  },
  {
   "property": "C36",
   "status": "proved",
   "theorems": [
    "C36_blockwise_in_callers_order",
    "C36_result_depends_on_own_block_only",
    "C36_permutation",
    "C36_missing_or_unknown_variable_raises",
    "C36_complete_input_succeeds"
   ],
   "note": "Blocks are arbitrary; any partition of the variables, any order of inputs. Succeeds exactly when variables match (given well-behaved blocks)."
  },
  {
   "property": "C37",
   "status": "partial",
   "theorems": [
    "C37_factorisation_partial",
    "C37_factor_adjoint_partial",
    "C37_linear_partial",
    "C37_symmetric_psd_partial",
    "C37_coefficients_scale_contributions_partial",
    "C37_is_pullback_of_loss_curvature_partial",
    "C37_factor_transpose_all_losses_partial",
    "C37_two_input_loss_refuted"
   ],
   "note": "REFUTED for a loss with two inputs (NormalMeanVariance): the product computer reads .dtype of a tuple and raises AttributeError. _partial theorems: any number of one-input losses, any Jacobian, coefficients >= 0; factorisation, adjointness, linearity, symmetry, PSD, coefficient scaling, and the J^T F J form."
  },
  {
   "property": "C38",
   "status": "proved",
   "theorems": [
    "C38_ggn_factors",
    "C38_factors_square_to_fisher",
    "C38_factor_adjoint",
    "C38_fisher_symmetric_psd",
    "C38_fisher_is_documented_matrix"
   ],
   "note": "All four losses over the reals; also equal to the documented matrices."
  },
  {
   "property": "C39",
   "status": "proved",
   "theorems": [
    "C39_ggn_one_hot_is_factor_column",
    "C39_one_hot_is_factor_column",
    "C39_index_out_of_range_raises",
    "C39_index_of_other_length_raises",
    "C39_exact_columns_sum_to_fisher"
   ],
   "note": "All four losses and indices; out-of-range index raises; the exact mode's columns sum to the Fisher of one batch row."
  },
  {
   "property": "C40",
   "status": "proved",
   "theorems": [
    "C40_categorical",
    "C40_multi_bernoulli",
    "C40_normal_mean",
    "C40_normal_mean_variance",
    "C40_targets_follow_the_loss",
    "C40_normal_targets_follow_the_loss"
   ],
   "note": "Gradients are real derivatives of evaluate(); expectations over independent targets, finite sums or integrals against the Gaussian density, whose probabilities or densities are tied to the evaluated loss."
  },
  {
   "property": "C41",
   "status": "proved",
   "theorems": [
    "C41_multiply_is_kronecker_power",
    "C41_inverse_undoes_multiply",
    "C41_multiply_is_linear",
    "C41_any_operators",
    "C41_full_fisher_block",
    "C41_columns"
   ],
   "note": "Over any real closed field; tf.self_adjoint_eig and tf.pow are quantified oracles constrained only by their contracts (both shown satisfiable). Registration, inverse update ops and serving are part of the model."
  },
  {
   "property": "C42",
   "status": "proved",
   "theorems": [
    "C42_dampings_multiply_to_damping",
    "C42_damping_ratio",
    "C42_damped_block_dominates"
   ],
   "note": "Both pi types, optional normalisation, zero-trace fallback, Loewner dominance."
  },
  {
   "property": "C43",
   "status": "proved",
   "theorems": [
    "C43_kronecker_cholesky",
    "C43_kronecker_cholesky_inverse",
    "C43_full_cholesky",
    "C43_full_powers",
    "C43_diagonal"
   ],
   "note": "Kronecker, full and diagonal blocks, through the factor's registered and served Choleskys."
  },
  {
   "property": "C44",
   "status": "proved",
   "theorems": [
    "C44_covariances_psd",
    "C44_sua_covariance_psd",
    "C44_diagonals_nonnegative",
    "C44_damped_invertible"
   ],
   "note": "Fully connected, convolutional, naive full, SUA (centred) covariances and all diagonal factors, over any history of updates, replicas, sources and towers."
  },
  {
   "property": "C45",
   "status": "partial",
   "theorems": [
    "C45_equal_towers_kronecker",
    "C45_equal_towers_diagonal",
    "C45_equal_towers_convolution",
    "C45_unequal_towers_rejected_refuted",
    "C45_unequal_towers_rejected_partial",
    "C45_equal_towers_accepted"
   ],
   "note": "REFUTED in its second half: check_partial_batch_sizes zips sources with towers, so with one source only tower 0 is compared with itself and unequal towers are accepted although their covariance differs from that of the concatenated batch. Proved: equal towers (and replicas) give the single-tower covariance for every statistic, equal towers are accepted, unequal ones are rejected when there are at least as many sources as towers."
  },
  {
   "property": "C46",
   "status": "proved",
   "theorems": [
    "C46_fully_connected_diagonal_aligned",
    "C46_convolution_diagonal_aligned"
   ],
   "note": "Fully connected and convolutional diagonal factors, with and without bias."
  },
  {
   "property": "C47",
   "status": "proved",
   "theorems": [
    "C47_sua_inverse",
    "C47_sua_inverse_bias"
   ],
   "note": "With and without bias, zero-mean or not, all three inversion methods."
  },
  {
   "property": "C48",
   "status": "proved",
   "theorems": [
    "C48_matcher_sound_complete",
    "C48_matcher_finds_an_assignment",
    "C48_consumed_nodes",
    "C48_all_matcher_enumerates",
    "C48_matcher_returns_the_first",
    "C48_outside_the_grammar",
    "C48_no_single_producer",
    "C48_ambiguous_identity"
   ],
   "note": "Full grammar including negation, thunks, repeated names and neighbour constraints (as In, Out, or In then Out, per the grammar). Two readings: C48_matcher_sound_complete for every pattern with names bound left to right; C48_matcher_finds_an_assignment order-independent, for patterns whose negated parts bind no names (with names inside a negation the meaning depends on matching order). Graphs: identity chains end."
  },
  {
   "property": "C49",
   "status": "partial",
   "theorems": [
    "C49_history_independent_refuted",
    "C49_each_call_appends_its_matches_partial"
   ],
   "note": "REFUTED: all_matcher's result list is created once and shared by all calls, so earlier matches reappear. The partial theorem says exactly what a call returns."
  },
  {
   "property": "C50",
   "status": "partial",
   "theorems": [
    "C50_kept_records_partial",
    "C50_ambiguous",
    "C50_no_strict_part_refuted"
   ],
   "note": "REFUTED in its third rule: a strict part of another candidate is kept when the two records share no variable (batch normalisation of a variable). Proved: exact characterisation of the kept records with the shared-variable form of the rule, disjointness of what remains, and when it raises."
  },
  {
   "property": "C51",
   "status": "proved",
   "theorems": [
    "C51_every_variable_registered"
   ],
   "note": "For every history of calls, graph, loss list and duplicate-free variable list; also earlier blocks untouched and each tower's data characterised. Order of the returned set is insertion order in the model."
  },
  {
   "property": "C52",
   "status": "proved",
   "theorems": [
    "C52_read_run",
    "C52_look_run",
    "C52_history",
    "C52_too_large",
    "C52_short_data",
    "C52_alt_read_run",
    "C52_alt_batch_is_sample",
    "C52_alt_look_run",
    "C52_alt_history",
    "C52_alt_too_large"
   ],
   "note": ""
  },
  {
   "property": "C53",
   "status": "proved",
   "theorems": [
    "C53_polynomial_decay",
    "C53_exponential_rate_and_steps",
    "C53_exponential_rate_and_final",
    "C53_exponential_final_and_steps",
    "C53_unknown_hyperparameter"
   ],
   "note": ""
  },
  {
   "property": "C54",
   "status": "partial",
   "theorems": [
    "C54_keeps_user_settings_refuted",
    "C54_momentum_refused_refuted",
    "C54_learning_rate_refused_refuted",
    "C54_keeps_user_settings_partial",
    "C54_fills_missing_settings_partial",
    "C54_nonzero_learning_rate_refused_partial",
    "C54_untouched_without_adaptation"
   ],
   "note": "REFUTED: when only one of invert_every and damping_adaptation_interval is given it is overwritten by 5; in the adaptive mode a momentum, or a learning rate of zero, is dropped without an error. Proved: everything else is kept and filled in as documented."
  },
  {
   "property": "C55",
   "status": "partial",
   "theorems": [
    "C55_weights_refuted",
    "C55_arguments_unchanged_refuted",
    "C55_losses_as_given_partial"
   ],
   "note": "REFUTED: the weight of an output that is a nested model is looked up under the name of an inner layer, so 1.0 is used, and the caller's loss dict is changed. Proved for models, nested or not, whose outputs are plain layers with distinct names."
  },
  {
   "property": "C56",
   "status": "proved",
   "theorems": [
    "C56_categorical_ggn_is_hessian",
    "C56_multi_bernoulli_ggn_is_hessian",
    "C56_normal_mean_ggn_is_hessian"
   ],
   "note": "The three natural-parameter losses; derivatives in the sense of the standard library's Reals."
  },
  {
   "property": "C57",
   "status": "partial",
   "theorems": [
    "C57_empirical_mode",
    "C57_gradients_mode_unbiased_partial",
    "C57_gradients_mode_all_losses_partial",
    "C57_curvature_prop_mode_unbiased_partial",
    "C57_exact_mode_partial",
    "C57_modes_refuted"
   ],
   "note": "REFUTED as stated: exact mode with mat_type GGN always raises AttributeError (nonexistent attribute), and modes curvature_prop and exact raise for NormalMeanVariance. _partial theorems: gradients mode for every loss (normal targets with integrals against the Gaussian density); curvature_prop and exact modes for one-input losses."
  },
  {
   "property": "C58",
   "status": "proved",
   "theorems": [
    "C58_setup_succeeds",
    "C58_served_power_is_last_update",
    "C58_served_cholesky_is_last_update",
    "C58_served_cholesky_inverse_is_last_update",
    "C58_current_matrix_and_unregistered"
   ],
   "note": "Whole life cycle of a dense factor; the three dictionaries, both inversion strategies."
  },
  {
   "property": "C59",
   "status": "partial",
   "theorems": [
    "C59_sua_filter_order_refuted",
    "C59_sua_filter_order_partial",
    "C59_sua_filter_order_degenerate_partial"
   ],
   "note": "REFUTED: the operator is channel-major (Kronecker(cov, I)) while the reshaped filter is spatial-major and the block does not permute; entries pair different spatial offsets. Proved: it is the intended operator in channel-major order, and in the filter's own order for 1x1 filters or one channel."
  },
  {
   "property": "C60",
   "status": "proved",
   "theorems": [
    "C60_sparse_product_agrees",
    "C60_other_combinations_raise"
   ],
   "note": "Diagonal input factor and dense output factor; every other combination raises."
  },
  {
   "property": "C61",
   "status": "partial",
   "theorems": [
    "C61_kronecker_patch_mask",
    "C61_diagonal_patch_mask_refuted",
    "C61_diagonal_patch_mask_partial"
   ],
   "note": "REFUTED for the diagonal block: the mask is not flattened before broadcasting against [.., height*width*channels] patches; 2x2 filters with two channels always raise and one channel silently masks by image location. Proved for Kronecker-factored blocks and for 1x1 filters."
  },
  {
   "property": "C62",
   "status": "proved",
   "theorems": [
    "C62_dense_layers",
    "C62_embeddings",
    "C62_scale_and_shift",
    "C62_fused_batch_norm",
    "C62_batch_norm"
   ],
   "note": "Affine, Embed, ScaleAndShift, FusedBatchNormOutput and BatchNorm patterns on every graph whose identity chains end."
  },
  {
   "property": "C63",
   "status": "proved",
   "theorems": [
    "C63_found_exactly",
    "C63_one_reading",
    "C63_order_of_variables",
    "C63_unsupported_layers"
   ],
   "note": "Whenever the scan returns, on every well-formed graph. For layers with more than one reading (both factors variables) the completeness part requires all readings to train a variable."
  },
  {
   "property": "C64",
   "status": "partial",
   "theorems": [
    "C64_dilation_passed_refuted",
    "C64_strides_and_format_partial"
   ],
   "note": "REFUTED: dilations are never passed on; proved: strides and data format of a convolution used once. Padding and format are one flag in the model."
  },
  {
   "property": "C65",
   "status": "partial",
   "theorems": [
    "C65_folded_uses_partial",
    "C65_no_uses",
    "C65_uses_dimension_refuted"
   ],
   "note": "REFUTED for [num_uses, batch_size, size] inputs: shape[1], the batch size, is passed. Proved for folded inputs, including when it raises."
  },
  {
   "property": "C66",
   "status": "partial",
   "theorems": [
    "C66_search_covers_losses_partial",
    "C66_search_covers_losses_refuted"
   ],
   "note": "REFUTED for NormalMeanVariance losses, whose inputs are a tuple: skipped, or AttributeError if first. Proved when all losses have one parameter."
  },
  {
   "property": "C67",
   "status": "partial",
   "theorems": [
    "C67_embedding_used_once_refuted",
    "C67_embedding_used_often_partial"
   ],
   "note": "REFUTED: used once, the requested kron_indep_in_diag is unknown to register_fully_connected, always ValueError. Proved: several uses select a known block."
  },
  {
   "property": "C68",
   "status": "partial",
   "theorems": [
    "C68_failed_read_keeps_batch_refuted",
    "C68_failed_read_keeps_rows_partial",
    "C68_alt_failed_read_keeps_positions_partial"
   ],
   "note": "REFUTED: the assignment of the cached size does not depend on the size check, so a run may change the cached size before the check fails. Proved instead: stored rows and positions are untouched, only the size may change."
  },
  {
   "property": "C69",
   "status": "partial",
   "theorems": [
    "C69_exactly_two_options_refuted",
    "C69_three_options_accepted",
    "C69_exactly_two_options_partial"
   ],
   "note": "REFUTED: the options are counted by truth value, so final_value=0.0 with one other option is rejected and three options of which one is zero are accepted. Proved: the exact condition for non-zero options."
  },
  {
   "property": "C70",
   "status": "partial",
   "theorems": [
    "C70_list_in_order_refuted",
    "C70_list_in_order_partial",
    "C70_dict",
    "C70_serialized_dict",
    "C70_default"
   ],
   "note": "REFUTED for the list form: two layers with the same name in different nested models both get the last approximation. Proved for distinct names; the dict form is proved in full."
  },
  {
   "property": "C71",
   "status": "partial",
   "theorems": [
    "C71_rebuilt_optimizer_refuted",
    "C71_rebuilt_fixedmu_refuted",
    "C71_rebuilt_adaptive_refuted",
    "C71_rebuilt_optimizer_partial"
   ],
   "note": "REFUTED: the default cov_ema_decay is stored as if given and raised to the power cov_update_every on rebuilding; qmodel_fixedmu optimizers cannot be rebuilt; a rebuilt adaptive optimizer has no loss function and no batch size. Proved for non-adaptive optimizers with cov_ema_decay given or cov_update_every left at 1."
  },
  {
   "property": "C72",
   "status": "proved",
   "theorems": [
    "C72_mutable_hyperparameters",
    "C72_training_uses_current_value",
    "C72_set_hyper"
   ],
   "note": ""
  },
  {
   "property": "C73",
   "status": "partial",
   "theorems": [
    "C73_weighted_loss_refuted",
    "C73_list_of_one_refuted",
    "C73_weighted_loss_partial",
    "C73_one_output_partial"
   ],
   "note": "REFUTED: with one output the weight is ignored, and a list of one loss or a serialized loss object fails. Proved for several outputs."
  },
  {
   "property": "C74",
   "status": "partial",
   "theorems": [
    "C74_registered_batch_is_used",
    "C74_refused_unchanged_partial",
    "C74_refused_batch_forgotten_refuted",
    "C74_register_train_batch",
    "C74_refused",
    "C74_needed_for_adaptive_damping"
   ],
   "note": "REFUTED: a tuple of tensors that is refused for its size is stored before the error and used by the wrapped optimizer, then without a batch size (C74_refused_batch_forgotten_refuted). Proved: the size, what is refused, that an accepted batch and its size reach the wrapped optimizer through every sequence of other calls, and that anything that is not a tuple of tensors changes nothing."
  },
  {
   "property": "C75",
   "status": "partial",
   "theorems": [
    "C75_supported_losses_partial",
    "C75_unsupported_losses",
    "C75_serialized_losses_refuted",
    "C75_saved_form",
    "C75_saved_losses_register_partial"
   ],
   "note": "REFUTED: a serialized loss object is refused, also the one serialize_loss made. Proved for names, functions and objects in any spelling; the saved form of every argument is characterised, and that of names and functions makes the same registrations on every model."
  },
  {
   "property": "C76",
   "status": "partial",
   "theorems": [
    "C76_untrained_layers_refuted",
    "C76_no_scale_refuted",
    "C76_fused_uses_refuted",
    "C76_layer_registration_partial",
    "C76_unsupported_layers"
   ],
   "note": "REFUTED: an activation layer without parameters can make registration fail; a normalization with neither scale nor shift raises IndexError; the learning phase set to 0 is taken for unset. Proved: what a registration consists of, and the other refusals."
  },
  {
   "property": "C77",
   "status": "proved",
   "theorems": [
    "C77_diagonal_statistics",
    "C77_concatenated_data",
    "C77_separate_data",
    "C77_statistics",
    "C77_accepted_data"
   ],
   "note": ""
  },
  {
   "property": "C78",
   "status": "partial",
   "theorems": [
    "C78_option1_is_sequence_covariance_refuted",
    "C78_option1_inverts_absolute_sequence_covariance_partial",
    "C78_option1_positive_partial",
    "C78_only_inverses"
   ],
   "note": "REFUTED: option 1 diagonalises the whitened covariance of successive uses with posdef_eig, which takes absolute values of the eigenvalues, so for covariances that are not positive the served inverse is that of another process; proved for what it does invert (relative absolute values) and for positive semidefinite symmetrised covariances."
  },
  {
   "property": "C79",
   "status": "proved",
   "theorems": [
    "C79_option2_inverts_lag_sum",
    "C79_lag_sum_is_limit"
   ],
   "note": ""
  },
  {
   "property": "C80",
   "status": "proved",
   "theorems": [
    "C80_statistics_of_a_batch",
    "C80_statistics_of_any_history",
    "C80_statistics_of_any_history_bias"
   ],
   "note": ""
  },
  {
   "property": "C81",
   "status": "partial",
   "theorems": [
    "C81_registrations_are_independent_refuted",
    "C81_registrations_are_independent_partial"
   ],
   "note": "REFUTED: the loop over option 1 dampings overwrites C1 by its symmetric part, so a block of option 2 that shares the factor gets a different inverse when any block registered option 1; proved independent otherwise."
  },
  {
   "property": "C82",
   "status": "partial",
   "theorems": [
    "C82_independent_uses",
    "C82_convolution_uses_all_examples_refuted",
    "C82_convolution_uses_all_examples_partial",
    "C82_series_rank3_refuted",
    "C82_series_rank2_partial"
   ],
   "note": "REFUTED in two parts: ConvKFCBasicMultiIndepFB passes num_uses in the position of sub_sample_inputs, so a fifth of the inputs is used by default; a rank 3 tensor makes the series vectors of the size of its second dimension, so building fails unless it equals the third. The scaling and damping are proved."
  },
  {
   "property": "C83",
   "status": "proved",
   "theorems": [
    "C83_patches_are_what_is_read",
    "C83_convolution_is_a_product",
    "C83_input_statistic"
   ],
   "note": ""
  },
  {
   "property": "C84",
   "status": "proved",
   "theorems": [
    "C84_mean_squared_gradients"
   ],
   "note": ""
  },
  {
   "property": "C85",
   "status": "proved",
   "theorems": [
    "C85_sampling_is_unbiased",
    "C85_rows_used"
   ],
   "note": ""
  },
  {
   "property": "C86",
   "status": "partial",
   "theorems": [
    "C86_locations_counted_refuted",
    "C86_locations_counted_partial"
   ],
   "note": "REFUTED: with dilation and VALID padding the count ignores the dilation; the approximation kron_sua forgets the strides; spatial strides given to register_convolution raise IndexError. Partial: exact count for SAME padding or no dilation with strides given in full."
  },
  {
   "property": "C87",
   "status": "partial",
   "theorems": [
    "C87_gradients_refuted",
    "C87_gradients_partial"
   ],
   "note": "REFUTED: inputs that are smaller than the outputs (broadcast by the scale) give a statistic of another size than the variable declared. Partial: inputs of the shape of the outputs, any broadcasting of scale and shift."
  },
  {
   "property": "C88",
   "status": "partial",
   "theorems": [
    "C88_depthwise_refuted",
    "C88_inverse_undoes_multiply_partial",
    "C88_each_channel_partial",
    "C88_diagonal_block"
   ],
   "note": "REFUTED: with correlated channels the Kronecker-factored depthwise block mixes channels and its inverse does not undo it. Partial: uncorrelated channels; the diagonal block is exact."
  },
  {
   "property": "C89",
   "status": "partial",
   "theorems": [
    "C89_own_statistics_refuted",
    "C89_bias_refuted",
    "C89_sub_sampling_refuted",
    "C89_own_statistics_partial"
   ],
   "note": "REFUTED: two tensor names may become the same word (a/b and a_b), and then two layers share one average silently; the names omit the bias of diagonal factors and the sub-sampling settings. The partial theorem needs words that can be told apart and printed parts that differ."
  },
  {
   "property": "C90",
   "status": "proved",
   "theorems": [
    "C90_inverses_own",
    "C90_created"
   ],
   "note": ""
  },
  {
   "property": "C91",
   "status": "partial",
   "theorems": [
    "C91_concat_scale_shift_refuted",
    "C91_every_layer_named_partial"
   ],
   "note": "REFUTED for scale-and-shift layers under the concat strategy (AttributeError for each of them); proved for all other layers and for the separate strategy."
  },
  {
   "property": "C92",
   "status": "proved",
   "theorems": [
    "C92_order",
    "C92_identities"
   ],
   "note": ""
  },
  {
   "property": "C93",
   "status": "partial",
   "theorems": [
    "C93_initial_values_refuted",
    "C93_settings_partial"
   ],
   "note": "REFUTED for init_covariances_at_zero and init_inverses_at_zero: the initializers are chosen on import. Proved for the other modelled constants."
  },
  {
   "property": "C94",
   "status": "proved",
   "theorems": [
    "C94_sizes"
   ],
   "note": ""
  },
  {
   "property": "C95",
   "status": "partial",
   "theorems": [
    "C95_average_over_replicas",
    "C95_replicator_decides",
    "C95_identity_elsewhere_refuted",
    "C95_identity_elsewhere_partial"
   ],
   "note": "REFUTED: inside a strategy's scope but outside of its replicas all_average divides by the number of replicas without having summed; proved for all supported contexts and for contexts with one replica."
  },
  {
   "property": "C96",
   "status": "proved",
   "theorems": [
    "C96_like_one_device"
   ],
   "note": ""
  },
  {
   "property": "C97",
   "status": "proved",
   "theorems": [
    "C97_replicas_stay_equal"
   ],
   "note": ""
  },
  {
   "property": "C98",
   "status": "partial",
   "theorems": [
    "C98_mirrored_like_one_device_partial",
    "C98_mirrored_like_one_device_refuted",
    "C98_burnin_refused"
   ],
   "note": "REFUTED: under MirroredStrategy smart_cond's branches are the first replica's, so only its mini-batch enters the statistics; proved: everything else is as on one device with the whole batch."
  },
  {
   "property": "C99",
   "status": "partial",
   "theorems": [
    "C99_unconnected_tensors_named_partial",
    "C99_exact_mode_needs_every_loss_partial",
    "C99_unconnected_tensors_named_refuted"
   ],
   "note": "REFUTED: in exact mode every loss must depend on every tensor, the error can name connected tensors or none, and without losses nothing is checked. Proved for the other modes (empirical with targets), with an exact condition for exact mode."
  },
  {
   "property": "C100",
   "status": "partial",
   "theorems": [
    "C100_mean_gradients_partial",
    "C100_means_in_other_modes",
    "C100_means_in_exact_mode",
    "C100_replicas_partial",
    "C100_tuples_refuted",
    "C100_on_request",
    "C100_which_variables"
   ],
   "note": "REFUTED: a tuple of variables raises TypeError. Proved for lists, in every mode that works, and for replicas."
  },
  {
   "property": "C101",
   "status": "partial",
   "theorems": [
    "C101_two_steps_are_minimize_partial",
    "C101_variables_in_any_order",
    "C101_other_trainable_variables_raise",
    "C101_two_steps_are_minimize_refuted"
   ],
   "note": "REFUTED: compute_gradients without var_list takes the trainable variables rather than the optimizer's. Proved when these agree and for explicit lists."
  },
  {
   "property": "C102",
   "status": "partial",
   "theorems": [
    "C102_devices_ignored_partial",
    "C102_round_robin_placement_refuted"
   ],
   "note": "REFUTED: the devices are parameters of the constructor and never handed on. Proved: nothing is ever placed, which is right for None only."
  },
  {
   "property": "C103",
   "status": "partial",
   "theorems": [
    "C103_orders_that_work",
    "C103_returned_order_works",
    "C103_documented_order_refuted",
    "C103_updates_without_variables_partial"
   ],
   "note": "REFUTED: dampings of a layer read both factors' covariances. Proved: with that condition added the orders that work are characterised exactly; the returned order works."
  },
  {
   "property": "C104",
   "status": "partial",
   "theorems": [
    "C104_requested_functions_partial",
    "C104_other_blocks_partial",
    "C104_registration_partial",
    "C104_requested_functions_refuted"
   ],
   "note": "REFUTED: series blocks lack the power 1 and Cholesky factors, SUA blocks fail at registration, diagonal blocks have every power. Proved: exact description for every kind of block."
  },
  {
   "property": "C105",
   "status": "partial",
   "theorems": [
    "C105_inverse_variables_listed_partial",
    "C105_uncorrelated_variables_refuted",
    "C105_replica_update_partial",
    "C105_replica_series_refuted",
    "C105_statistics_refuted",
    "C105_statistics_partial"
   ],
   "note": "REFUTED: a spatially uncorrelated factor lists one of every two or four inverse variables and never its mean; series factors list tuples, which the replica placement cannot assign; the statistics are listed as computed tensors. Proved: completeness and the replica update for all other factors."
  },
  {
   "property": "C106",
   "status": "partial",
   "theorems": [
    "C106_saved_settings_partial",
    "C106_file_closed_partial",
    "C106_file_closed_refuted",
    "C106_not_compiled",
    "C106_loaded_optimizer_partial",
    "C106_adaptive_refuted"
   ],
   "note": "REFUTED: the file stays open if the architecture cannot be read, and a model saved with the state of an optimizer that adapts its damping cannot be loaded, as the training batch is not saved; the rest is proved."
  },
  {
   "property": "C107",
   "status": "partial",
   "theorems": [
    "C107_created_once",
    "C107_created_for",
    "C107_layers_registered",
    "C107_own_weights_partial",
    "C107_disjoint_weights_partial",
    "C107_all_weights_partial",
    "C107_own_weights_refuted",
    "C107_loss_function_partial",
    "C107_loss_function_refuted"
   ],
   "note": "REFUTED: a dot in the name matches other names, so weights of another optimizer are included; and a model given to register_layers is not used by the loss function. Proved for plain names and the constructor's model."
  },
  {
   "property": "C108",
   "status": "partial",
   "theorems": [
    "C108_state_restored_partial",
    "C108_state_restored_refuted"
   ],
   "note": "REFUTED: two dampings of one factor are kept in a set, and their inverses can be exchanged without an error. Proved if there is at most one registration of each kind per factor."
  },
  {
   "property": "C109",
   "status": "proved",
   "theorems": [
    "C109_kronecker_factored",
    "C109_full_matrix",
    "C109_diagonal_inputs",
    "C109_diagonal"
   ],
   "note": "The inverses may be stale or still at their initial value; convolutional and recurrent layers use the same two factors."
  },
  {
   "property": "C110",
   "status": "partial",
   "theorems": [
    "C110_momentum_refuted",
    "C110_fixed_momentum_refuted",
    "C110_weight_decay_refuted",
    "C110_step_partial",
    "C110_loss_goes_down_partial",
    "C110_qmodel_partial"
   ],
   "note": "REFUTED: with momentum carried over (regular or fixed momentum) or with weight decay a step may go uphill. Proved without both, and with momentum for qmodel."
  },
  {
   "property": "C111",
   "status": "partial",
   "theorems": [
    "C111_one_role",
    "C111_gradient_count",
    "C111_shares",
    "C111_twenty_percent_refuted",
    "C111_statistics_refuted",
    "C111_statistics_partial",
    "C111_out_of_range_refuted",
    "C111_out_of_range_partial",
    "C111_dedicated_refuted",
    "C111_all_gradients_refuted"
   ],
   "note": "REFUTED in part: exactly one task inverts (not 20%), no task accumulates statistics below five tasks, one or two tasks accept any id, the dedicated-workers example calls a method the optimizer lacks, and with a chief only ceil(0.6 n) gradients are aggregated. One duty per task, the number of awaited gradients, and the exact shares are proved for the floating-point expressions."
  },
  {
   "property": "C112",
   "status": "partial",
   "theorems": [
    "C112_schedule_partial",
    "C112_schedule_refuted"
   ],
   "note": "REFUTED for a data set of exactly the start size (division by zero); otherwise proved, in exact real arithmetic (in binary64 the last entries can be one lower)."
  },
  {
   "property": "C113",
   "status": "proved",
   "theorems": [
    "C113_manual",
    "C113_period_zero",
    "C113_chief",
    "C113_estimator"
   ],
   "note": ""
  },
  {
   "property": "C114",
   "status": "partial",
   "theorems": [
    "C114_documented_flags",
    "C114_constructs",
    "C114_undocumented_refuted"
   ],
   "note": "REFUTED in part: an undocumented value gives an UnboundLocalError, not a report. The documented values are proved."
  },
  {
   "property": "C115",
   "status": "partial",
   "theorems": [
    "C115_eval_partial",
    "C115_eval_refuted",
    "C115_stale_refuted",
    "C115_no_regularizer_refuted"
   ],
   "note": "REFUTED: the regularization term is that of the old or the trained values, never of the averages, and l2_reg = 0 is an error; errors and data terms are proved for every order."
  },
  {
   "property": "C116",
   "status": "partial",
   "theorems": [
    "C116_towers_average",
    "C116_run_partial",
    "C116_each_example",
    "C116_run_refuted",
    "C116_no_devices_refuted"
   ],
   "note": "REFUTED: a run fails unless the number of towers divides the number of examples of all epochs, and always without devices; otherwise proved."
  },
  {
   "property": "C117",
   "status": "partial",
   "theorems": [
    "C117_exact_step_partial",
    "C117_exact_run_partial",
    "C117_damping_to_floor_partial",
    "C117_parallel_refuted",
    "C117_one_parameter_refuted"
   ],
   "note": "REFUTED: when the previous update is a multiple of the preconditioned gradient (always, from the second step on, with one scalar parameter) the 2x2 system is singular and the step divides by zero. Proved for every step and run in which the system is solvable: exact prediction, monotone loss, damping to the floor."
  },
  {
   "property": "C118",
   "status": "proved",
   "theorems": [
    "C118_layer",
    "C118_statistic",
    "C118_history",
    "C118_same_update",
    "C118_refused",
    "C118_batch_size",
    "C118_bias_not_exact",
    "C118_output_not_exact"
   ],
   "note": ""
  },
  {
   "property": "C119",
   "status": "proved",
   "theorems": [
    "C119_squared_error",
    "C119_normal",
    "C119_normal_curvature",
    "C119_softmax",
    "C119_sigmoid",
    "C119_aliases",
    "C119_sums_over_cases",
    "C119_normal_temperature",
    "C119_categorical_not_temperature",
    "C119_bernoulli_not_temperature",
    "C119_targets_optional",
    "C119_variance_must_be_float",
    "C119_onehot_class",
    "C119_onehot_curvature"
   ],
   "note": ""
  },
  {
   "property": "C120",
   "status": "partial",
   "theorems": [
    "C120_covariances",
    "C120_damping_split_partial",
    "C120_kronecker_block_partial",
    "C120_pi_off_refuted",
    "C120_vanishing_covariance_refuted",
    "C120_full_block",
    "C120_diagonal_block",
    "C120_estimates_partial",
    "C120_products",
    "C120_empirical_refuted",
    "C120_step",
    "C120_steps",
    "C120_training",
    "C120_training_goes_on"
   ],
   "note": "REFUTED: in mode 'empirical' the statistics of coeff-weighted losses grow with the square of the constant, with PI_TYPE off the inverse product changes, and so it does when one factor's covariance vanishes. The optimizer's step and whole runs, the other estimation modes, all statistics, curvature products, full and diagonal blocks and Kronecker blocks with the trace-norm adjustment and non-zero traces are proved."
  },
  {
   "property": "C121",
   "status": "proved",
   "theorems": [
    "C121_same_layer",
    "C121_covariances",
    "C121_diagonal_covariances",
    "C121_damping_split",
    "C121_kronecker_block",
    "C121_full_block",
    "C121_diagonal_block",
    "C121_diagonal_blocks_can_tell",
    "C121_coordinates",
    "C121_step",
    "C121_steps",
    "C121_training",
    "C121_training_goes_on"
   ],
   "note": "Layer, factor and block level over any real closed field; the optimizer level for any isometric coordinates (C121_coordinates: orthogonal matrices give such). C121_diagonal_blocks_can_tell shows that the restriction of diagonal blocks to renumberings is needed."
  },
  {
   "property": "C122",
   "status": "proved",
   "theorems": [
    "C122_error",
    "C122_exact",
    "C122_independent",
    "C122_product"
   ],
   "note": ""
  },
  {
   "property": "C123",
   "status": "proved",
   "theorems": [
    "C123_same_layer",
    "C123_covariances",
    "C123_natural_gradient",
    "C123_coordinates",
    "C123_step",
    "C123_steps",
    "C123_training"
   ],
   "note": ""
  },
  {
   "property": "C124",
   "status": "partial",
   "theorems": [
    "C124_jacobian_partial",
    "C124_jacobian_transpose_partial",
    "C124_adjoint",
    "C124_hessian_partial",
    "C124_symmetric",
    "C124_jacobian_none_refuted",
    "C124_hessian_raises_refuted",
    "C124_wrt_dependencies_refuted"
   ],
   "note": "REFUTED as intended: for an input that depends on none of the tensors the Jacobian product is None instead of zeros (C124_jacobian_none_refuted); the Hessian product raises if the loss does not depend on one of the tensors (C124_hessian_raises_refuted), and follows dependencies between the tensors, which the Jacobian products hold fixed (C124_wrt_dependencies_refuted). Proved for everything else; entries of tensors are modelled one by one, reals instead of floats except for NaN."
  },
  {
   "property": "C125",
   "status": "proved",
   "theorems": [
    "C125_gauss_newton",
    "C125_affine"
   ],
   "note": "the vectors that hold the curvature of the loss are nodes of the user's graph with the right values; losses that share an input node are not covered (inputs are distinct)."
  },
  {
   "property": "C126",
   "status": "partial",
   "theorems": [
    "C126_compiled_as_saved_partial",
    "C126_compiled",
    "C126_custom_objects_refuted"
   ],
   "note": "REFUTED: losses.get is not given the custom objects, so a loss saved as a class of the user is refused; the class name inside the description of a custom metric is replaced by the class; a non-empty dictionary of the caller gets the entry Kfac. Proved otherwise, for all nested structures."
  },
  {
   "property": "C127",
   "status": "partial",
   "theorems": [
    "C127_ggn_product_partial",
    "C127_symmetric_partial",
    "C127_positive_partial",
    "C127_hessian_partial",
    "C127_unused_input_refuted",
    "C127_squared_error_partial"
   ],
   "note": "REFUTED for inputs that depend on none of the tensors (C127_unused_input_refuted); proved where every input depends on one of the tensors. The products of the losses are any graph builder with the right values; for squared errors they are modelled (C127_squared_error_partial)."
  },
  {
   "property": "C128",
   "status": "partial",
   "theorems": [
    "C128_scale_broadcasts_refuted",
    "C128_accepted_shapes_partial",
    "C128_refused_shapes_partial",
    "C128_broadcasting_accepted"
   ],
   "note": "REFUTED: the scale is not compared with the inputs from above, so a scale of 5 entries for inputs with one feature is accepted (C128_scale_broadcasts_refuted); a shift of that shape is refused. Proved: what is accepted, what is refused and that nothing is registered then, and that broadcasting shapes are accepted in a fresh collection. Corner: shapes that are both of rank 0 are accepted by the model where the code fails with an index error."
  },
  {
   "property": "C129",
   "status": "partial",
   "theorems": [
    "C129_replicated_iff_replicas_partial",
    "C129_replicated_iff_replicas_refuted"
   ],
   "note": "REFUTED: in a cross-replica context with several replicas the placement is refused, in a TPU context with one shard accepted. Proved in replica contexts and without a strategy."
  }
 ]
}