{
 "claims": [
  {
   "property": "C01",
   "status": "proved",
   "theorems": [
    "C01_batches_are_aligned_windows",
    "C01_every_window_reachable"
   ],
   "note": ""
  },
  {
   "property": "C02",
   "status": "proved",
   "theorems": [
    "C02_large_batch_is_whole_dataset"
   ],
   "note": ""
  },
  {
   "property": "C03",
   "status": "proved",
   "theorems": [
    "C03_seeded_batches_reproducible",
    "C03_unseeded_uses_some_seed",
    "C03_seeded_shuffled_batches_reproducible",
    "C03_effect_on_global_generator"
   ],
   "note": "Batch sequences as functions of (data, batch size, seed, RNG oracle); the concrete Mersenne twister is an arbitrary oracle with the documented ranges."
  },
  {
   "property": "C04",
   "status": "proved",
   "theorems": [
    "C04_generator_validation",
    "C04_shuffled_generator_validation"
   ],
   "note": ""
  },
  {
   "property": "C05",
   "status": "proved",
   "theorems": [
    "C05_shuffled_batches_keep_pairs",
    "C05_shuffled_source"
   ],
   "note": ""
  },
  {
   "property": "C06",
   "status": "proved",
   "theorems": [
    "C06_caller_arrays_unchanged_refuted",
    "C06_earlier_batch_stable_refuted",
    "C06_step_touches_only_its_batch"
   ],
   "note": "Contract violation: the expected clauses are refuted by concrete histories (caller's arrays and earlier batches change); what the code guarantees instead is C06_step_touches_only_its_batch. generate_batches never changes the arrays (C01)."
  },
  {
   "property": "C07",
   "status": "proved",
   "theorems": [
    "C07_label_count",
    "C07_one_label_per_row_refuted",
    "C07_shuffled_wide_labels_lose_pairing"
   ],
   "note": "Contract violation for labels of width >= 2: exact label count proved, the documented clause refuted, and with shuffling the pairing is lost."
  },
  {
   "property": "C08",
   "status": "proved",
   "theorems": [
    "C08_constant_schedule_is_constant"
   ],
   "note": ""
  },
  {
   "property": "C09",
   "status": "proved",
   "theorems": [
    "C09_step_protocol",
    "C09_counts",
    "C09_batches_in_order",
    "C09_schedule_and_session_replay"
   ],
   "note": ""
  },
  {
   "property": "C10",
   "status": "proved",
   "theorems": [
    "C10_burn_in_boundary_and_frozen_mass"
   ],
   "note": ""
  },
  {
   "property": "C11",
   "status": "proved",
   "theorems": [
    "C11_no_burn_in_never_feeds_mass",
    "C11_mass_adapts_forever",
    "C11_no_burn_in_means_fixed_mass_refuted"
   ],
   "note": "Contract violation: refuted by a concrete run; positive half: without burn-in no mass matrix is ever fed, and the one used is the newly adapted one in every step."
  },
  {
   "property": "C12",
   "status": "proved",
   "theorems": [
    "C12_user_feed_reaches_session",
    "C12_user_feed_ignored_after_burn_in",
    "C12_user_feed_always_fed_refuted"
   ],
   "note": "Contract violation after burn-in, exact characterisation of when user entries reach the session."
  },
  {
   "property": "C13",
   "status": "proved",
   "theorems": [
    "C13_sample_format",
    "C13_uniform_format_refuted"
   ],
   "note": "Contract violation for one target parameter; exact format in all cases plus refutation of a uniform format."
  },
  {
   "property": "C14",
   "status": "proved",
   "theorems": [
    "C14_failed_step",
    "C14_failed_update_still_moves_chain_refuted"
   ],
   "note": "The failure of schedule.update is the one case in which the chain has already moved (refutation of atomicity)."
  },
  {
   "property": "C15",
   "status": "proved",
   "theorems": [
    "C15_schedule_kept",
    "C15_sgld_schedule_ignored",
    "C15_schedule_always_used_refuted",
    "C15_sgld_stepsizes",
    "C15_stepsizes_from_schedule"
   ],
   "note": "Holds for SGHMC, RelativisticSGHMC, SVGD; contract violation for SGLD, stated and refuted."
  },
  {
   "property": "C16",
   "status": "proved",
   "theorems": [
    "C16_relativistic_samples_track_parameters",
    "C16_samples_track_parameters",
    "C16_external_writes_are_overwritten"
   ],
   "note": ""
  },
  {
   "property": "C17",
   "status": "proved",
   "theorems": [
    "C17_sghmc_adaptation_well_posed",
    "C17_sgld_adaptation_well_posed"
   ],
   "note": ""
  },
  {
   "property": "C18",
   "status": "proved",
   "theorems": [
    "C18_mass_positive_and_bounded",
    "C18_adaptation_never_nan"
   ],
   "note": ""
  },
  {
   "property": "C19",
   "status": "proved",
   "theorems": [
    "C19_noise_scale",
    "C19_sghmc_never_nan"
   ],
   "note": ""
  },
  {
   "property": "C20",
   "status": "proved",
   "theorems": [
    "C20_momentum_bounded"
   ],
   "note": ""
  },
  {
   "property": "C21",
   "status": "proved",
   "theorems": [
    "C21_sghmc_update",
    "C21_sghmc_update_in_runs",
    "C21_sghmc_shape_independent"
   ],
   "note": ""
  },
  {
   "property": "C22",
   "status": "proved",
   "theorems": [
    "C22_sgld_update",
    "C22_sgld_update_in_runs",
    "C22_sgld_never_nan"
   ],
   "note": ""
  },
  {
   "property": "C23",
   "status": "proved",
   "theorems": [
    "C23_moments",
    "C23_unique_fixed_point",
    "C23_converges"
   ],
   "note": ""
  },
  {
   "property": "C24",
   "status": "proved",
   "theorems": [
    "C24_speed_limit",
    "C24_limit_is_sharp",
    "C24_every_call"
   ],
   "note": ""
  },
  {
   "property": "C25",
   "status": "proved",
   "theorems": [
    "C25_noise_scale_defined_iff",
    "C25_nan_for_ever",
    "C25_finite_otherwise"
   ],
   "note": ""
  },
  {
   "property": "C26",
   "status": "proved",
   "theorems": [
    "C26_one_element_parameters_only",
    "C26_mass_and_speed_must_be_floats",
    "C26_any_variables_refuted"
   ],
   "note": "Contract violation: success iff every parameter has exactly one element (and float mass / speed of light); the documented generality is refuted."
  },
  {
   "property": "C27",
   "status": "proved",
   "theorems": [
    "C27_kernel_matrix"
   ],
   "note": ""
  },
  {
   "property": "C28",
   "status": "proved",
   "theorems": [
    "C28_update_formula",
    "C28_flat_cost_contracts",
    "C28_two_particles_attract",
    "C28_published_repels"
   ],
   "note": "Contract violation: the coded update is the published one with the kernel-gradient sign flipped, for all inputs; contraction and its opposite for the published update proved."
  },
  {
   "property": "C29",
   "status": "proved",
   "theorems": [
    "C29_step_bound",
    "C29_run_bound"
   ],
   "note": ""
  },
  {
   "property": "C30",
   "status": "proved",
   "theorems": [
    "C30_permutation"
   ],
   "note": ""
  },
  {
   "property": "C31",
   "status": "proved",
   "theorems": [
    "C31_degenerate_nan",
    "C31_otherwise_finite",
    "C31_all_coincide",
    "C31_shapes"
   ],
   "note": "Contract violation: exact condition for NaN."
  },
  {
   "property": "C32",
   "status": "proved",
   "theorems": [
    "C32_relativistic_seeded_runs_are_reproducible",
    "C32_seeded_runs_are_reproducible",
    "C32_unseeded_runs_refuted"
   ],
   "note": "Reproducible for every seeded run from equal op counters or op seeds; unseeded runs refuted. TensorFlow's per-op seed derivation (get_seed) is modelled as library behaviour."
  },
  {
   "property": "C33",
   "status": "proved",
   "theorems": [
    "C33_seeded_parameters_share_one_stream",
    "C33_seeded_noise_is_perfectly_correlated",
    "C33_unseeded_noise_is_uncorrelated",
    "C33_identical_parameters_never_separate"
   ],
   "note": "Contract violation: identical streams proved for seeded runs; correlation 1 and, for unseeded distinct streams, 0 under an abstract expectation functional."
  },
  {
   "property": "C34",
   "status": "proved",
   "theorems": [
    "C34_sghmc_separable",
    "C34_sghmc_snapshot",
    "C34_sgld_separable",
    "C34_sgld_snapshot",
    "C34_relativistic_separable",
    "C34_relativistic_snapshot",
    "C34_svgd",
    "C34_coupled_refuted",
    "C34_snapshot_refuted",
    "C34_cost_refuted",
    "C34_session_any_order"
   ],
   "note": "Order independence for every admissible order and every number of parameters, under two readings of variable reads; its limits are refuted (coupled gradients with in-place reads; the reported cost)."
  },
  {
   "property": "C35",
   "status": "proved",
   "theorems": [
    "C35_vectorize_row_major",
    "C35_vectorize_rejects_others",
    "C35_positions_distinct"
   ],
   "note": ""
  },
  {
   "property": "C36",
   "status": "proved",
   "theorems": [
    "C36_median_is_the_median",
    "C36_median_permutation_and_shape_invariant"
   ],
   "note": ""
  },
  {
   "property": "C37",
   "status": "proved",
   "theorems": [
    "C37_safe_divide_exact",
    "C37_safe_divisor_floating_point",
    "C37_safe_divide_never_nan"
   ],
   "note": ""
  },
  {
   "property": "C38",
   "status": "proved",
   "theorems": [
    "C38_safe_sqrt",
    "C38_safe_sqrt_bounds"
   ],
   "note": ""
  },
  {
   "property": "C39",
   "status": "proved",
   "theorems": [
    "C39_pdist_squareform",
    "C39_metric",
    "C39_squareform_exact",
    "C39_error_cases"
   ],
   "note": ""
  },
  {
   "property": "C40",
   "status": "proved",
   "theorems": [
    "C40_uninitialized_params",
    "C40_session_required"
   ],
   "note": ""
  },
  {
   "property": "C41",
   "status": "proved",
   "theorems": [
    "C41_arguments_resolved",
    "C41_arguments_reach_the_sampler"
   ],
   "note": ""
  },
  {
   "property": "C42",
   "status": "proved",
   "theorems": [
    "C42_rejected_iff",
    "C42_self_dropped",
    "C42_unknown_rejected_refuted"
   ],
   "note": "Contract violation for the keyword 'self'; otherwise exact."
  },
  {
   "property": "C43",
   "status": "proved",
   "theorems": [
    "C43_session_required",
    "C43_session_optional_refuted"
   ],
   "note": "Contract violation: session is not optional."
  },
  {
   "property": "C44",
   "status": "proved",
   "theorems": [
    "C44_is_supported_exact",
    "C44_documented_refuted"
   ],
   "note": "Contract violation: exact set, documented set refuted."
  },
  {
   "property": "C45",
   "status": "proved",
   "theorems": [
    "C45_standardizes",
    "C45_standardizes_targets",
    "C45_given_constants"
   ],
   "note": ""
  },
  {
   "property": "C46",
   "status": "proved",
   "theorems": [
    "C46_constant_column_nan",
    "C46_constant_targets_nan",
    "C46_normalization_usable_refuted"
   ],
   "note": "Contract violation: constant columns and constant targets give NaN."
  },
  {
   "property": "C47",
   "status": "proved",
   "theorems": [
    "C47_zero_one"
   ],
   "note": ""
  },
  {
   "property": "C48",
   "status": "proved",
   "theorems": [
    "C48_incumbent_is_best",
    "C48_no_data"
   ],
   "note": ""
  },
  {
   "property": "C49",
   "status": "proved",
   "theorems": [
    "C49_constructor_exact",
    "C49_attributes"
   ],
   "note": ""
  },
  {
   "property": "C50",
   "status": "proved",
   "theorems": [
    "C50_window",
    "C50_collects_thinned_samples",
    "C50_number_of_samples",
    "C50_mass_matrix_frozen"
   ],
   "note": ""
  },
  {
   "property": "C51",
   "status": "proved",
   "theorems": [
    "C51_trained_without_samples",
    "C51_predicts_nan_refuted",
    "C51_finite_predictions_refuted"
   ],
   "note": "Contract violation: exact condition for an empty sample set, and predict's result for it."
  },
  {
   "property": "C52",
   "status": "proved",
   "theorems": [
    "C52_trained_iff_a_train_completed",
    "C52_predict_untrained"
   ],
   "note": ""
  },
  {
   "property": "C53",
   "status": "proved",
   "theorems": [
    "C53_aggregate_of_individual",
    "C53_same_failures"
   ],
   "note": ""
  },
  {
   "property": "C54",
   "status": "proved",
   "theorems": [
    "C54_noise_omitted"
   ],
   "note": ""
  },
  {
   "property": "C55",
   "status": "proved",
   "theorems": [
    "C55_network_evaluated_at_samples",
    "C55_predict_independent_of_session"
   ],
   "note": ""
  },
  {
   "property": "C56",
   "status": "proved",
   "theorems": [
    "C56_cost",
    "C56_full_batch",
    "C56_mean_cost_refuted",
    "C56_oversized_batch"
   ],
   "note": "Exact cost; contract violation for batch_size > N refuted."
  },
  {
   "property": "C57",
   "status": "proved",
   "theorems": [
    "C57_log_variance_prior",
    "C57_weight_prior"
   ],
   "note": ""
  },
  {
   "property": "C58",
   "status": "proved",
   "theorems": [
    "C58_failed_build_keeps_old_samples",
    "C58_failed_sampling_keeps_a_prefix",
    "C58_named_network_trains_once",
    "C58_failed_rebuild_breaks_predict",
    "C58_atomic_train_refuted"
   ],
   "note": "Contract violation: atomicity refuted, the state after each failure point proved."
  },
  {
   "property": "C59",
   "status": "proved",
   "theorems": [
    "C59_mismatched_data_fail_late"
   ],
   "note": ""
  },
  {
   "property": "C60",
   "status": "proved",
   "theorems": [
    "C60_safe_settings",
    "C60_one_sided_permutation",
    "C60_rows_keep_labels_refuted"
   ],
   "note": "Contract violation with exactly one normalization disabled; safe settings proved."
  },
  {
   "property": "C61",
   "status": "proved",
   "theorems": [
    "C61_network_function",
    "C61_trained_default_network",
    "C61_default_net"
   ],
   "note": ""
  },
  {
   "property": "C62",
   "status": "proved",
   "theorems": [
    "C62_trace_faithful",
    "C62_anonymous_names",
    "C62_getitem_range",
    "C62_point_indices"
   ],
   "note": ""
  },
  {
   "property": "C63",
   "status": "proved",
   "theorems": [
    "C63_duplicate_names",
    "C63_index_gives_variable_refuted"
   ],
   "note": "Contract violation for repeated names."
  },
  {
   "property": "C64",
   "status": "proved",
   "theorems": [
    "C64_keep_every_ignored",
    "C64_multitrace_keep_every_ignored",
    "C64_consecutive_samples",
    "C64_keeps_every_refuted"
   ],
   "note": "Contract violation: keep_every is ignored; what is recorded is proved."
  },
  {
   "property": "C65",
   "status": "proved",
   "theorems": [
    "C65_slice_never_projects",
    "C65_projection_fails",
    "C65_reverse_relabels",
    "C65_slice_projects_refuted"
   ],
   "note": "Contract violation: slices never project; exact outcome."
  },
  {
   "property": "C66",
   "status": "proved",
   "theorems": [
    "C66_vector_parameter_fails",
    "C66_crossing_trace_unreadable"
   ],
   "note": "Contract violation for one-parameter samplers."
  },
  {
   "property": "C67",
   "status": "proved",
   "theorems": [
    "C67_one_trace_per_chain",
    "C67_ids_never_clash",
    "C67_diagnostic_input"
   ],
   "note": ""
  },
  {
   "property": "C68",
   "status": "proved",
   "theorems": [
    "C68_banana",
    "C68_rosenbrock",
    "C68_bohachevski",
    "C68_levy",
    "C68_goldstein_price",
    "C68_branin",
    "C68_branin_documented",
    "C68_camelback"
   ],
   "note": ""
  },
  {
   "property": "C69",
   "status": "proved",
   "theorems": [
    "C69_log_density",
    "C69_total",
    "C69_mismatch",
    "C69_bounded",
    "C69_symmetric",
    "C69_named_mixtures"
   ],
   "note": ""
  },
  {
   "property": "C70",
   "status": "proved",
   "theorems": [
    "C70_sin_one",
    "C70_sin_two",
    "C70_camelback_symmetric",
    "C70_number_of_coordinates",
    "C70_negation",
    "C70_hartmann3_range",
    "C70_hartmann6_range",
    "C70_hartmann_formula",
    "C70_sinc"
   ],
   "note": ""
  },
  {
   "property": "C71",
   "status": "proved",
   "theorems": [
    "C71_updates_accumulate",
    "C71_update_untrained",
    "C71_shape_checks"
   ],
   "note": ""
  },
  {
   "property": "C72",
   "status": "proved",
   "theorems": [
    "C72_burn_in_discarded",
    "C72_burn_in_kept_refuted"
   ],
   "note": "Contract violation: the recorded chains do not depend on the burn-in state."
  },
  {
   "property": "C73",
   "status": "proved",
   "theorems": [
    "C73_single_variable_refuted"
   ],
   "note": "Contract violation: networks with a single variable cannot predict."
  },
  {
   "property": "C74",
   "status": "proved",
   "theorems": [
    "C74_finite_generator_ends_training_silently"
   ],
   "note": ""
  },
  {
   "property": "C75",
   "status": "proved",
   "theorems": [
    "C75_variables_of_others_are_sampled"
   ],
   "note": ""
  },
  {
   "property": "C76",
   "status": "proved",
   "theorems": [
    "C76_own_values_win",
    "C76_rejected_iff",
    "C76_unknown_keyword_fails_late"
   ],
   "note": ""
  },
  {
   "property": "C77",
   "status": "proved",
   "theorems": [
    "C77_moments",
    "C77_stable_iff",
    "C77_stationary",
    "C77_bias",
    "C77_floor_dominates_small_stepsizes"
   ],
   "note": "Over real arithmetic, scalar parameter, frozen mass; the noise enters through an abstract expectation functional (standardised, uncorrelated with the state). Contract violation for tiny stepsizes: the 1e-16 noise floor makes the stationary variance exceed every bound."
  },
  {
   "property": "C78",
   "status": "proved",
   "theorems": [
    "C78_batches_follow_draws",
    "C78_weights",
    "C78_coverage_counts",
    "C78_edges_and_centre",
    "C78_unbiased_iff"
   ],
   "note": "Contract violation: exact weights of the datapoints; batch means are unbiased over the starts iff b = 1 or b = N. The uniformity of randint enters only as a hypothesis on the draws (every start drawn equally often)."
  },
  {
   "property": "C79",
   "status": "proved",
   "theorems": [
    "C79_label_units",
    "C79_feature_units",
    "C79_without_normalization_refuted"
   ],
   "note": "Over real arithmetic (statistics exact); a constant column is 0 after normalization over R where the code gives NaN, see C46. Refuted without normalize_output."
  },
  {
   "property": "C80",
   "status": "proved",
   "theorems": [
    "C80_predictions_are_pointwise",
    "C80_test_sets_concatenate",
    "C80_default_net"
   ],
   "note": "For networks with at least two variables (see C73) that treat rows independently; the default network is proved to."
  },
  {
   "property": "C81",
   "status": "proved",
   "theorems": [
    "C81_wrong_width_rejected",
    "C81_single_feature_spread",
    "C81_without_samples",
    "C81_wrong_width_refuted"
   ],
   "note": "Contract violation: a single feature is broadcast when inputs are normalized; all other widths rejected."
  },
  {
   "property": "C82",
   "status": "proved",
   "theorems": [
    "C82_dictionary_after_a_call",
    "C82_one_sampler_may_share",
    "C82_samplers_may_share_refuted"
   ],
   "note": "Contract violation: exact content of the dictionary after a call; when sharing is harmless is proved."
  },
  {
   "property": "C83",
   "status": "proved",
   "theorems": [
    "C83_every_order_once",
    "C83_answers"
   ],
   "note": ""
  },
  {
   "property": "C84",
   "status": "proved",
   "theorems": [
    "C84_shuffling_mixes",
    "C84_rate",
    "C84_long_run",
    "C84_started",
    "C84_equidistributed_states"
   ],
   "note": "Independence and uniformity of the draws enter as hypothesis (equidistributed); such states exist (C84_equidistributed_states) but the code's equal seeding prevents them with numpy's generator, see C85."
  },
  {
   "property": "C85",
   "status": "proved",
   "theorems": [
    "C85_never_equidistributed",
    "C85_first_batch",
    "C85_lockstep",
    "C85_every_place_reachable_refuted"
   ],
   "note": "Contract violation. That numpy's randint and shuffle mask the same 32-bit words (masked) is numpy's behaviour, entered as hypothesis; the LCG of the examples satisfies it."
  },
  {
   "property": "C86",
   "status": "proved",
   "theorems": [
    "C86_published_chain",
    "C86_published_chain_unseeded",
    "C86_published_chain_relativistic"
   ],
   "note": ""
  },
  {
   "property": "C87",
   "status": "proved",
   "theorems": [
    "C87_training_samples_the_chain",
    "C87_chain_of_a_network"
   ],
   "note": "For seeded samplers; logging is assumed to leave the variables unchanged; the gradients are those the objective returns."
  },
  {
   "property": "C88",
   "status": "proved",
   "theorems": [
    "C88_potential",
    "C88_posterior",
    "C88_flattening",
    "C88_unit_weight_prior_refuted"
   ],
   "note": "Contract violation: prior variance of each weight is the number of weights. Full batches; constant predicted noise for the density form."
  },
  {
   "property": "C89",
   "status": "proved",
   "theorems": [
    "C89_constructor_exact",
    "C89_schedules_checked_refuted"
   ],
   "note": "Contract violation: SGLD accepts any value as stepsize_schedule. TensorFlow's own complaints while building the graph are assumed absent."
  },
  {
   "property": "C90",
   "status": "proved",
   "theorems": [
    "C90_stepsizes",
    "C90_invalid_arguments",
    "C90_results",
    "C90_keep_every_ignored",
    "C90_chains_own_refuted",
    "C90_stepsizes_nonnegative_refuted",
    "C90_example"
   ],
   "note": "Contract violations: chains are pieces of one run, --keep-every is ignored, --stepsize is not checked. Stepsizes are real numbers; argparse and pymc3's diagnostic are not modelled."
  },
  {
   "property": "C91",
   "status": "proved",
   "theorems": [
    "C91_svgd_run",
    "C91_exchangeable"
   ],
   "note": ""
  },
  {
   "property": "C92",
   "status": "proved",
   "theorems": [
    "C92_sghmc_averages",
    "C92_sgld_averages",
    "C92_initial_values_are_forgotten",
    "C92_idle_parameter"
   ],
   "note": ""
  },
  {
   "property": "C93",
   "status": "proved",
   "theorems": [
    "C93_floating_point_adaptation"
   ],
   "note": "Exponents are unbounded upwards (no overflow); gradients are arbitrary reals. The bound on the number of steps is a hypothesis: 2048*(t+1)^2 <= 2^precision."
  },
  {
   "property": "C94",
   "status": "proved",
   "theorems": [
    "C94_sgld_sample_mean",
    "C94_sghmc_sample_mean"
   ],
   "note": ""
  },
  {
   "property": "C95",
   "status": "proved",
   "theorems": [
    "C95_seeded_sgld_correlates_independent_parameters",
    "C95_unseeded_sgld_decorrelates",
    "C95_seeded_sgld_coalesces",
    "C95_seeded_sghmc_coalesces"
   ],
   "note": "Stated for two scalar parameters of a separable quadratic cost with frozen mass; the unseeded theorem assumes the draws of a step to be uncorrelated with the other parameter's current value."
  },
  {
   "property": "C96",
   "status": "proved",
   "theorems": [
    "C96_initial_network",
    "C96_seeded_kernels_repeat",
    "C96_correlation_of_hidden_kernels"
   ],
   "note": "variance_scaling_initializer and truncated_normal are library code, modelled from their documentation: draws from an op of its own times sqrt(1.3/fan_in)."
  },
  {
   "property": "C97",
   "status": "proved",
   "theorems": [
    "C97_sgld_forgets_its_start",
    "C97_sgld_returns_to_the_minimiser",
    "C97_sgld_mean_square"
   ],
   "note": "Exact arithmetic; the cost must not depend on the batch (full-batch gradients). Adaptation for ever (burn_in_steps <= 0) is not covered: the preconditioner then changes with the gradients. The gradient function is a hypothesis of the model (TensorFlow's automatic differentiation)."
  },
  {
   "property": "C98",
   "status": "proved",
   "theorems": [
    "C98_sghmc_forgets_its_start",
    "C98_sghmc_returns_to_the_minimiser",
    "C98_sghmc_mean_square"
   ],
   "note": "Stepsize condition eps^2 m L <= mdecay^2/10; the constants are not claimed to be sharp."
  },
  {
   "property": "C99",
   "status": "proved",
   "theorems": [
    "C99_minibatches_keep_samples_close",
    "C99_minibatch_sgld_returns_to_the_minimiser",
    "C99_generated_batches_keep_samples_close"
   ],
   "note": "Worst-case bound over all batches; no use is made of the randomness of the batches."
  },
  {
   "property": "C100",
   "status": "proved",
   "theorems": [
    "C100_columns_are_independent",
    "C100_standardize_all_or_nothing",
    "C100_standardize_labels_all_or_nothing",
    "C100_zero_one_cases",
    "C100_incumbent_is_the_missing_value"
   ],
   "note": "Exact characterisation, including the contract violations: a single missing value is not contained."
  },
  {
   "property": "C101",
   "status": "proved",
   "theorems": [
    "C101_entries_never_recover",
    "C101_bad_gradients_spoil",
    "C101_stein_particles_infect_each_other",
    "C101_stein_gradients_spoil_all_particles"
   ],
   "note": "The library has no check for non-finite values; this is the consequence. Relativistic SGHMC for the one-element parameters its step supports (C26)."
  },
  {
   "property": "C102",
   "status": "proved",
   "theorems": [
    "C102_runs_stay_finite",
    "C102_large_gradients_destroy"
   ],
   "note": "The gradient bound is a hypothesis on the gradients met in the run, so no assumption on the target elsewhere is needed. Masses: the mass used is computed from the second moment before the current gradient, hence the delay of two steps."
  },
  {
   "property": "C103",
   "status": "proved",
   "theorems": [
    "C103_bounds",
    "C103_scaling_in_doubles",
    "C103_too_wide",
    "C103_exact_round_trip_refuted"
   ],
   "note": "C47 is the same statement over the reals, C100 with NaN and infinities in the data."
  },
  {
   "property": "C104",
   "status": "proved",
   "theorems": [
    "C104_exact_sums",
    "C104_exact_constants",
    "C104_constant_columns",
    "C104_normalization_standardizes",
    "C104_constant_columns_become_nan_refuted"
   ],
   "note": "C46 describes constant columns in exact arithmetic; this is the double-precision picture."
  },
  {
   "property": "C105",
   "status": "proved",
   "theorems": [
    "C105_median_in_doubles",
    "C105_median_of_equal_entries_refuted",
    "C105_safe_divide_in_doubles",
    "C105_safe_divide_exact_refuted",
    "C105_safe_sqrt_in_doubles",
    "C105_distances_in_doubles",
    "C105_distances_symmetric",
    "C105_distance_separates_refuted"
   ],
   "note": "Double-precision companion of C36-C39; the sum of squares is taken in the order of the model."
  },
  {
   "property": "C106",
   "status": "proved",
   "theorems": [
    "C106_velocity_in_doubles",
    "C106_strict_limit_refuted",
    "C106_runs_stay_finite",
    "C106_speed_limit_in_runs",
    "C106_large_gradients_freeze"
   ],
   "note": "Double-precision companion of C24 and C25; the strict limit fails by rounding only, the freeze needs a gradient spike."
  },
  {
   "property": "C107",
   "status": "proved",
   "theorems": [
    "C107_any_order",
    "C107_unanimous_exact",
    "C107_predictions_in_doubles",
    "C107_normalized_predictions",
    "C107_unanimous_refuted",
    "C107_finite_members_refuted"
   ],
   "note": "Double-precision companion of C53; exact agreement and overflow are the two ways the real-number claim fails."
  },
  {
   "property": "C108",
   "status": "proved",
   "theorems": [
    "C108_steps_are_bounded",
    "C108_runs_are_bounded",
    "C108_overflow_freezes",
    "C108_progress_refuted"
   ],
   "note": "Double-precision companion of C29; the refuted part is the overflow of the historical gradient."
  },
  {
   "property": "C109",
   "status": "proved",
   "theorems": [
    "C109_separated_particles_stay_finite",
    "C109_coinciding_particles_are_lost",
    "C109_equal_particles_separate_refuted"
   ],
   "note": "Double-precision companion of C27 and C31; the refuted part is the loss of coinciding particles. That particles stay apart is a hypothesis."
  },
  {
   "property": "C110",
   "status": "proved",
   "theorems": [
    "C110_camelback_even",
    "C110_camelback_in_doubles",
    "C110_rosenbrock_in_doubles",
    "C110_bohachevski_in_doubles",
    "C110_levy_in_doubles",
    "C110_waves_in_doubles",
    "C110_branin_in_doubles",
    "C110_goldstein_price_minimum_refuted",
    "C110_hartmann_in_doubles",
    "C110_banana_in_doubles"
   ],
   "note": "Double-precision companion of C68; goldstein_price's documented minimum and the exact optimum values of bohachevski and levy fail in doubles."
  },
  {
   "property": "C111",
   "status": "proved",
   "theorems": [
    "C111_mixture_accuracy",
    "C111_mixture_finite",
    "C111_default_mixtures"
   ],
   "note": "Double-precision companion of C69."
  },
  {
   "property": "C112",
   "status": "proved",
   "theorems": [
    "C112_cost_finite",
    "C112_cost_overflow",
    "C112_cost_monotone",
    "C112_guard",
    "C112_cost_nan",
    "C112_cost_is_a_number_refuted"
   ],
   "note": "Double-precision companion of the cost properties; the claim that finite outputs give a number is refuted."
  },
  {
   "property": "C113",
   "status": "proved",
   "theorems": [
    "C113_minibatches_keep_samples_close",
    "C113_minibatch_sghmc_returns_to_the_minimiser",
    "C113_generated_batches_keep_samples_close"
   ],
   "note": "SGHMC counterpart of C99."
  },
  {
   "property": "C114",
   "status": "proved",
   "theorems": [
    "C114_samples_after_burn_in",
    "C114_step_error",
    "C114_rounding_does_not_accumulate"
   ],
   "note": "The step with fed (frozen) masses, as after burn-in; the computed gradient is a parameter with a known error."
  },
  {
   "property": "C115",
   "status": "proved",
   "theorems": [
    "C115_samples_after_burn_in",
    "C115_sghmc_step_error"
   ],
   "note": "The step with fed (frozen) masses, as after burn-in; the bound is per step, from the state in doubles before it."
  }
 ]
}