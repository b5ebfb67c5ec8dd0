{
 "claims": [
  {
   "property": "C01",
   "status": "proved",
   "theorems": [
    "C01_announced_paths_solve_the_model"
   ],
   "note": ""
  },
  {
   "property": "C02",
   "status": "proved",
   "theorems": [
    "C02_announced_path_unique"
   ],
   "note": ""
  },
  {
   "property": "C03",
   "status": "proved",
   "theorems": [
    "C03_checks_are_notional"
   ],
   "note": ""
  },
  {
   "property": "C04",
   "status": "proved",
   "theorems": [
    "C04_no_uninitialised_reads",
    "C04_kmax0",
    "C04_kmax0_refuted"
   ],
   "note": "k_max>=1: proved. k_max=0: exact characterisation proved and a concrete failure exhibited."
  },
  {
   "property": "C05",
   "status": "proved",
   "theorems": [
    "C05_slack_iff"
   ],
   "note": ""
  },
  {
   "property": "C06",
   "status": "proved",
   "theorems": [
    "C06_first_admissible_selected"
   ],
   "note": ""
  },
  {
   "property": "C07",
   "status": "proved",
   "theorems": [
    "C07_meaning_of_flags"
   ],
   "note": ""
  },
  {
   "property": "C08",
   "status": "proved",
   "theorems": [
    "C08_results_in_range",
    "C08_sentinel_refuted"
   ],
   "note": "proved up to 999 tabulated values of l; beyond, the sentinel clash is exhibited."
  },
  {
   "property": "C09",
   "status": "proved",
   "theorems": [
    "C09_flag0_is_no_equilibrium_refuted"
   ],
   "note": "the full-equilibrium reading of flag 0 is refuted by a one-state model for every table size."
  },
  {
   "property": "C10",
   "status": "proved",
   "theorems": [
    "C10_parallel_equals_sequential"
   ],
   "note": ""
  },
  {
   "property": "C11",
   "status": "proved",
   "theorems": [
    "C11_k0_entries_linear"
   ],
   "note": ""
  },
  {
   "property": "C12",
   "status": "proved",
   "theorems": [
    "C12_compressed_iff_user",
    "C12_no_spurious_paths",
    "C12_exact_meaning",
    "C12_lead_lag_refuted"
   ],
   "note": ""
  },
  {
   "property": "C13",
   "status": "proved",
   "theorems": [
    "C13_yaml_constraint_encoding",
    "C13_encoding_iff",
    "C13_lagged_terms_refuted"
   ],
   "note": ""
  },
  {
   "property": "C14",
   "status": "proved",
   "theorems": [
    "C14_variables_partitioned",
    "C14_missing_variable_is_an_error"
   ],
   "note": ""
  },
  {
   "property": "C15",
   "status": "proved",
   "theorems": [
    "C15_rotation_preserves_solutions",
    "C15_normalisation_preserves_solutions"
   ],
   "note": ""
  },
  {
   "property": "C16",
   "status": "proved",
   "theorems": [
    "C16_one_call",
    "C16_history",
    "C16_resolve_keeps",
    "C16_documented_default_refuted"
   ],
   "note": ""
  },
  {
   "property": "C17",
   "status": "proved",
   "theorems": [
    "C17_prefix_of_attributes",
    "C17_failed_solve_mixes",
    "C17_tables_of_last_success",
    "C17_atomic_refuted"
   ],
   "note": ""
  },
  {
   "property": "C18",
   "status": "proved",
   "theorems": [
    "C18_shocks_are_last_states",
    "C18_zero_loading_refuted"
   ],
   "note": ""
  },
  {
   "property": "C19",
   "status": "proved",
   "theorems": [
    "C19_only_the_state_block_matters",
    "C19_no_states_refuted"
   ],
   "note": ""
  },
  {
   "property": "C20",
   "status": "proved",
   "theorems": [
    "C20_set_k_decoding"
   ],
   "note": ""
  },
  {
   "property": "C21",
   "status": "proved",
   "theorems": [
    "C21_observables_agree",
    "C21_rows",
    "C21_one_dimensional_state_refuted"
   ],
   "note": ""
  },
  {
   "property": "C22",
   "status": "proved",
   "theorems": [
    "C22_linear_superposition",
    "C22_linear_simulation"
   ],
   "note": ""
  },
  {
   "property": "C23",
   "status": "proved",
   "theorems": [
    "C23_set_k_gives_the_announced_path",
    "C23_given_durations_apply"
   ],
   "note": ""
  },
  {
   "property": "C24",
   "status": "proved",
   "theorems": [
    "C24_equilibrium_is_held",
    "C24_multiplicity",
    "C24_forcing_inactive_refuted"
   ],
   "note": ""
  },
  {
   "property": "C25",
   "status": "proved",
   "theorems": [
    "C25_shock_vector"
   ],
   "note": ""
  },
  {
   "property": "C26",
   "status": "proved",
   "theorems": [
    "C26_simulate",
    "C26_composition",
    "C26_mask",
    "C26_mask_replaces_refuted",
    "C26_total"
   ],
   "note": ""
  },
  {
   "property": "C27",
   "status": "proved",
   "theorems": [
    "C27_guard_never_fires_refuted"
   ],
   "note": ""
  },
  {
   "property": "C28",
   "status": "proved",
   "theorems": [
    "C28_simulate_needs_source_refuted",
    "C28_simulate_with_source"
   ],
   "note": ""
  },
  {
   "property": "C29",
   "status": "proved",
   "theorems": [
    "C29_traj_is_one_period_short",
    "C29_traj_refuted"
   ],
   "note": ""
  },
  {
   "property": "C30",
   "status": "proved",
   "theorems": [
    "C30_tables_of_first_use",
    "C30_stale_tables_refuted"
   ],
   "note": ""
  },
  {
   "property": "C31",
   "status": "proved",
   "theorems": [
    "C31_k_map",
    "C31_k_map_search"
   ],
   "note": ""
  },
  {
   "property": "C32",
   "status": "proved",
   "theorems": [
    "C32_shock2state"
   ],
   "note": ""
  },
  {
   "property": "C33",
   "status": "proved",
   "theorems": [
    "C33_lags_faithful"
   ],
   "note": ""
  },
  {
   "property": "C34",
   "status": "proved",
   "theorems": [
    "C34_leads_faithful",
    "C34_long_leads_are_cut",
    "C34_long_leads_refuted"
   ],
   "note": ""
  },
  {
   "property": "C35",
   "status": "proved",
   "theorems": [
    "C35_lagged_shocks_faithful"
   ],
   "note": ""
  },
  {
   "property": "C36",
   "status": "proved",
   "theorems": [
    "C36_square"
   ],
   "note": ""
  },
  {
   "property": "C37",
   "status": "proved",
   "theorems": [
    "C37_matrices",
    "C37_solutions"
   ],
   "note": ""
  },
  {
   "property": "C38",
   "status": "proved",
   "theorems": [
    "C38_contemporaneous",
    "C38_lags_dropped",
    "C38_lags_refuted"
   ],
   "note": ""
  },
  {
   "property": "C39",
   "status": "proved",
   "theorems": [
    "C39_terminates",
    "C39_resolves",
    "C39_order",
    "C39_shadowing_refuted"
   ],
   "note": ""
  },
  {
   "property": "C40",
   "status": "proved",
   "theorems": [
    "C40_symmetric",
    "C40_diagonal",
    "C40_cross_covariance"
   ],
   "note": ""
  },
  {
   "property": "C41",
   "status": "proved",
   "theorems": [
    "C41_read",
    "C41_transparent",
    "C41_directory",
    "C41_path_refuted",
    "C41_functions_refuted"
   ],
   "note": ""
  },
  {
   "property": "C42",
   "status": "proved",
   "theorems": [
    "C42_isolated",
    "C42_dicts_shared",
    "C42_force_forgets"
   ],
   "note": ""
  },
  {
   "property": "C43",
   "status": "proved",
   "theorems": [
    "C43_load_needs_data",
    "C43_path",
    "C43_saved"
   ],
   "note": ""
  },
  {
   "property": "C44",
   "status": "proved",
   "theorems": [
    "C44_grows"
   ],
   "note": ""
  },
  {
   "property": "C45",
   "status": "proved",
   "theorems": [
    "C45_roundtrip",
    "C45_histories",
    "C45_commute",
    "C45_unknown",
    "C45_derived",
    "C45_derived_follows"
   ],
   "note": ""
  },
  {
   "property": "C46",
   "status": "proved",
   "theorems": [
    "C46_selects",
    "C46_mistaken",
    "C46_refuted"
   ],
   "note": ""
  },
  {
   "property": "C47",
   "status": "proved",
   "theorems": [
    "C47_read_only",
    "C47_sets_reset",
    "C47_refuted"
   ],
   "note": ""
  },
  {
   "property": "C48",
   "status": "proved",
   "theorems": [
    "C48_best_and_mode"
   ],
   "note": ""
  },
  {
   "property": "C49",
   "status": "proved",
   "theorems": [
    "C49_pure"
   ],
   "note": ""
  },
  {
   "property": "C50",
   "status": "proved",
   "theorems": [
    "C50_get_vector",
    "C50_set_vector"
   ],
   "note": ""
  },
  {
   "property": "C51",
   "status": "proved",
   "theorems": [
    "C51_no_priors"
   ],
   "note": ""
  },
  {
   "property": "C52",
   "status": "proved",
   "theorems": [
    "C52_get_cov"
   ],
   "note": ""
  },
  {
   "property": "C53",
   "status": "proved",
   "theorems": [
    "C53_box_check",
    "C53_default",
    "C53_default_refuted"
   ],
   "note": ""
  },
  {
   "property": "C54",
   "status": "proved",
   "theorems": [
    "C54_blocks"
   ],
   "note": ""
  },
  {
   "property": "C55",
   "status": "proved",
   "theorems": [
    "C55_posterior"
   ],
   "note": ""
  },
  {
   "property": "C56",
   "status": "proved",
   "theorems": [
    "C56_kalman",
    "C56_ensemble",
    "C56_reduced"
   ],
   "note": ""
  },
  {
   "property": "C57",
   "status": "proved",
   "theorems": [
    "C57_stable",
    "C57_refuted"
   ],
   "note": ""
  },
  {
   "property": "C58",
   "status": "proved",
   "theorems": [
    "C58_recover"
   ],
   "note": ""
  },
  {
   "property": "C59",
   "status": "proved",
   "theorems": [
    "C59_replay",
    "C59_exact"
   ],
   "note": ""
  },
  {
   "property": "C60",
   "status": "proved",
   "theorems": [
    "C60_guards",
    "C60_ll_is_number",
    "C60_states"
   ],
   "note": ""
  },
  {
   "property": "C61",
   "status": "proved",
   "theorems": [
    "C61_names",
    "C61_unavailable",
    "C61_default_size"
   ],
   "note": ""
  },
  {
   "property": "C62",
   "status": "proved",
   "theorems": [
    "C62_same_seed",
    "C62_no_attempts",
    "C62_failure",
    "C62_success"
   ],
   "note": ""
  },
  {
   "property": "C63",
   "status": "proved",
   "theorems": [
    "C63_history",
    "C63_random_state",
    "C63_interrupt_refuted"
   ],
   "note": ""
  },
  {
   "property": "C64",
   "status": "proved",
   "theorems": [
    "C64_infinite_prior",
    "C64_zero_temp",
    "C64_value",
    "C64_never_nan"
   ],
   "note": ""
  },
  {
   "property": "C65",
   "status": "proved",
   "theorems": [
    "C65_explicit",
    "C65_remembered",
    "C65_horizons_refuted"
   ],
   "note": ""
  },
  {
   "property": "C66",
   "status": "proved",
   "theorems": [
    "C66_mapper",
    "C66_drops",
    "C66_permanent",
    "C66_worker_count",
    "C66_kept",
    "C66_mcmc"
   ],
   "note": ""
  },
  {
   "property": "C67",
   "status": "proved",
   "theorems": [
    "C67_default_tune",
    "C67_single_vector"
   ],
   "note": ""
  },
  {
   "property": "C68",
   "status": "proved",
   "theorems": [
    "C68_roundtrip",
    "C68_default_path",
    "C68_extension_lost",
    "C68_suffix_extension_lost",
    "C68_short"
   ],
   "note": ""
  },
  {
   "property": "C69",
   "status": "proved",
   "theorems": [
    "C69_complete",
    "C69_succeeds",
    "C69_atomic",
    "C69_missing_column",
    "C69_missing_value"
   ],
   "note": ""
  },
  {
   "property": "C70",
   "status": "proved",
   "theorems": [
    "C70_one_walker",
    "C70_argument_ignored",
    "C70_exact",
    "C70_fails",
    "C70_short_chain"
   ],
   "note": ""
  },
  {
   "property": "C71",
   "status": "proved",
   "theorems": [
    "C71_vix",
    "C71_oix",
    "C71_text_is_one_name"
   ],
   "note": ""
  },
  {
   "property": "C72",
   "status": "proved",
   "theorems": [
    "C72_precedence",
    "C72_empty_name",
    "C72_no_fallback",
    "C72_tune"
   ],
   "note": ""
  },
  {
   "property": "C73",
   "status": "proved",
   "theorems": [
    "C73_bands",
    "C73_stacked"
   ],
   "note": ""
  },
  {
   "property": "C74",
   "status": "proved",
   "theorems": [
    "C74_adds_up",
    "C74_means",
    "C74_total",
    "C74_loss"
   ],
   "note": ""
  },
  {
   "property": "C75",
   "status": "proved",
   "theorems": [
    "C75_shares",
    "C75_value",
    "C75_extract_refuted",
    "C75_total"
   ],
   "note": ""
  },
  {
   "property": "C76",
   "status": "proved",
   "theorems": [
    "C76_dimension_error",
    "C76_solved"
   ],
   "note": ""
  },
  {
   "property": "C77",
   "status": "proved",
   "theorems": [
    "C77_shift",
    "C77_equality",
    "C77_printing"
   ],
   "note": ""
  },
  {
   "property": "C78",
   "status": "proved",
   "theorems": [
    "C78_announced_paths_solve_users_model"
   ],
   "note": ""
  },
  {
   "property": "C79",
   "status": "proved",
   "theorems": [
    "C79_notional_value_is_the_users"
   ],
   "note": ""
  },
  {
   "property": "C80",
   "status": "proved",
   "theorems": [
    "C80_irfs_total"
   ],
   "note": ""
  },
  {
   "property": "C81",
   "status": "proved",
   "theorems": [
    "C81_unused_and_undeclared",
    "C81_dated_parameter"
   ],
   "note": ""
  },
  {
   "property": "C82",
   "status": "proved",
   "theorems": [
    "C82_constraint_dates"
   ],
   "note": ""
  },
  {
   "property": "C83",
   "status": "proved",
   "theorems": [
    "C83_draws_not_settable"
   ],
   "note": ""
  },
  {
   "property": "C84",
   "status": "proved",
   "theorems": [
    "C84_fitting_shapes",
    "C84_states_rejected"
   ],
   "note": ""
  },
  {
   "property": "C85",
   "status": "proved",
   "theorems": [
    "C85_obs_cov"
   ],
   "note": ""
  },
  {
   "property": "C86",
   "status": "proved",
   "theorems": [
    "C86_debug_sticks",
    "C86_extract_linear"
   ],
   "note": ""
  },
  {
   "property": "C87",
   "status": "proved",
   "theorems": [
    "C87_settings",
    "C87_failed_call_remembered",
    "C87_start_unseeded"
   ],
   "note": ""
  },
  {
   "property": "C88",
   "status": "proved",
   "theorems": [
    "C88_mode",
    "C88_stored"
   ],
   "note": ""
  },
  {
   "property": "C89",
   "status": "proved",
   "theorems": [
    "C89_mode_coordinates",
    "C89_refuted"
   ],
   "note": ""
  },
  {
   "property": "C90",
   "status": "proved",
   "theorems": [
    "C90_same_as_get_ll"
   ],
   "note": ""
  },
  {
   "property": "C91",
   "status": "proved",
   "theorems": [
    "C91_given_covariance_is_used",
    "C91_init_cov_persists",
    "C91_value_changes",
    "C91_init_cov_is_permanent",
    "C91_extract_init_cov_is_permanent"
   ],
   "note": ""
  },
  {
   "property": "C92",
   "status": "proved",
   "theorems": [
    "C92_methods",
    "C92_pairs",
    "C92_given_chain"
   ],
   "note": ""
  },
  {
   "property": "C93",
   "status": "proved",
   "theorems": [
    "C93_post_mean",
    "C93_given_chain_refuted"
   ],
   "note": ""
  },
  {
   "property": "C94",
   "status": "proved",
   "theorems": [
    "C94_nhd",
    "C94_gfevd"
   ],
   "note": ""
  },
  {
   "property": "C95",
   "status": "proved",
   "theorems": [
    "C95_rules_solve_the_file",
    "C95_file_paths_follow_the_rules"
   ],
   "note": ""
  },
  {
   "property": "C96",
   "status": "proved",
   "theorems": [
    "C96_observables_as_declared",
    "C96_observables_by_name"
   ],
   "note": ""
  },
  {
   "property": "C97",
   "status": "proved",
   "theorems": [
    "C97_other_files",
    "C97_continued",
    "C97_fresh",
    "C97_missing_walkers",
    "C97_rejected_keeps_chains_refuted"
   ],
   "note": ""
  },
  {
   "property": "C98",
   "status": "proved",
   "theorems": [
    "C98_same_session",
    "C98_found_again",
    "C98_suffix",
    "C98_no_backend",
    "C98_last_stored_refuted"
   ],
   "note": ""
  },
  {
   "property": "C99",
   "status": "proved",
   "theorems": [
    "C99_tune"
   ],
   "note": ""
  },
  {
   "property": "C100",
   "status": "proved",
   "theorems": [
    "C100_same_window",
    "C100_passed_chain_needs_own",
    "C100_table",
    "C100_labels",
    "C100_fits_refuted"
   ],
   "note": ""
  },
  {
   "property": "C101",
   "status": "proved",
   "theorems": [
    "C101_tables_agree",
    "C101_longer_horizons",
    "C101_stable",
    "C101_slack",
    "C101_k_max_replaces_refuted"
   ],
   "note": ""
  },
  {
   "property": "C102",
   "status": "proved",
   "theorems": [
    "C102_equilibrium_is_found",
    "C102_stays_solvable"
   ],
   "note": ""
  },
  {
   "property": "C103",
   "status": "proved",
   "theorems": [
    "C103_clash_is_rejected",
    "C103_accepted_is_faithful",
    "C103_declared_twice_refuted"
   ],
   "note": ""
  },
  {
   "property": "C104",
   "status": "proved",
   "theorems": [
    "C104_states",
    "C104_one_variable",
    "C104_nonnegative_loadings",
    "C104_negative_loading_refuted"
   ],
   "note": ""
  },
  {
   "property": "C105",
   "status": "proved",
   "theorems": [
    "C105_same_as_setting",
    "C105_zero_vector_is_ignored",
    "C105_first_call",
    "C105_failed_first_call",
    "C105_simulate",
    "C105_zero_vector_refuted"
   ],
   "note": ""
  },
  {
   "property": "C106",
   "status": "proved",
   "theorems": [
    "C106_each_vector",
    "C106_assigned_covariance_is_ignored"
   ],
   "note": ""
  },
  {
   "property": "C107",
   "status": "proved",
   "theorems": [
    "C107_only_the_constant_changes",
    "C107_units"
   ],
   "note": ""
  },
  {
   "property": "C108",
   "status": "proved",
   "theorems": [
    "C108_one_period",
    "C108_irfs",
    "C108_simulate"
   ],
   "note": ""
  },
  {
   "property": "C109",
   "status": "proved",
   "theorems": [
    "C109_given_durations",
    "C109_between_two_equilibria"
   ],
   "note": ""
  },
  {
   "property": "C110",
   "status": "proved",
   "theorems": [
    "C110_later_shocks",
    "C110_horizon",
    "C110_later_shocks_refuted"
   ],
   "note": ""
  },
  {
   "property": "C111",
   "status": "proved",
   "theorems": [
    "C111_rest",
    "C111_later",
    "C111_zero_bound_refuted"
   ],
   "note": ""
  },
  {
   "property": "C112",
   "status": "proved",
   "theorems": [
    "C112_calibration",
    "C112_prior_mean",
    "C112_adj_prior_mean",
    "C112_mode",
    "C112_posterior_mean",
    "C112_init"
   ],
   "note": ""
  },
  {
   "property": "C113",
   "status": "proved",
   "theorems": [
    "C113_declared",
    "C113_one_model",
    "C113_space",
    "C113_constraint_form",
    "C113_constraint_number",
    "C113_unconstrained",
    "C113_number",
    "C113_double_equality",
    "C113_no_equation",
    "C113_zero"
   ],
   "note": ""
  },
  {
   "property": "C114",
   "status": "proved",
   "theorems": [
    "C114_verbatim",
    "C114_power",
    "C114_semicolon",
    "C114_continuation",
    "C114_marker",
    "C114_marker_unindented_refuted",
    "C114_tilde_inside"
   ],
   "note": ""
  },
  {
   "property": "C115",
   "status": "proved",
   "theorems": [
    "C115_tables",
    "C115_accepted",
    "C115_rejected",
    "C115_no_estimation"
   ],
   "note": ""
  },
  {
   "property": "C116",
   "status": "proved",
   "theorems": [
    "C116_model_is_solved",
    "C116_period",
    "C116_simulate",
    "C116_irfs"
   ],
   "note": ""
  },
  {
   "property": "C117",
   "status": "proved",
   "theorems": [
    "C117_irfs_is_simulate"
   ],
   "note": ""
  },
  {
   "property": "C118",
   "status": "proved",
   "theorems": [
    "C118_rewritten",
    "C118_twice_refuted",
    "C118_recombined",
    "C118_small_units_refuted"
   ],
   "note": ""
  },
  {
   "property": "C119",
   "status": "proved",
   "theorems": [
    "C119_unique_solution",
    "C119_reported",
    "C119_durations"
   ],
   "note": ""
  },
  {
   "property": "C120",
   "status": "proved",
   "theorems": [
    "C120_period",
    "C120_simulate",
    "C120_from_rest",
    "C120_irfs"
   ],
   "note": ""
  },
  {
   "property": "C121",
   "status": "proved",
   "theorems": [
    "C121_derived",
    "C121_rejected",
    "C121_solved",
    "C121_same",
    "C121_period",
    "C121_simulate",
    "C121_irfs",
    "C121_determined"
   ],
   "note": ""
  },
  {
   "property": "C122",
   "status": "proved",
   "theorems": [
    "C122_coordinates",
    "C122_later_session",
    "C122_from_file",
    "C122_later_session_refuted",
    "C122_sampled_meaning_refuted"
   ],
   "note": ""
  },
  {
   "property": "C123",
   "status": "proved",
   "theorems": [
    "C123_pure",
    "C123_prepared",
    "C123_first_read",
    "C123_parameters_lost",
    "C123_again",
    "C123_prior_mean"
   ],
   "note": ""
  },
  {
   "property": "C124",
   "status": "proved",
   "theorems": [
    "C124_saved",
    "C124_kept",
    "C124_assigned",
    "C124_unsaved",
    "C124_missing",
    "C124_first_run"
   ],
   "note": ""
  },
  {
   "property": "C125",
   "status": "proved",
   "theorems": [
    "C125_shown",
    "C125_never_sampled",
    "C125_run_restores_description",
    "C125_later_session",
    "C125_start_values",
    "C125_start_values_prepared"
   ],
   "note": ""
  },
  {
   "property": "C126",
   "status": "proved",
   "theorems": [
    "C126_ten_parameters",
    "C126_no_chains",
    "C126_every_model_refuted"
   ],
   "note": ""
  },
  {
   "property": "C127",
   "status": "proved",
   "theorems": [
    "C127_scale",
    "C127_any_bound",
    "C127_positive_bound"
   ],
   "note": ""
  },
  {
   "property": "C128",
   "status": "proved",
   "theorems": [
    "C128_solve",
    "C128_period",
    "C128_irfs",
    "C128_shock2state",
    "C128_simulate",
    "C128_free_choice"
   ],
   "note": ""
  },
  {
   "property": "C129",
   "status": "proved",
   "theorems": [
    "C129_never_writes",
    "C129_source_lost",
    "C129_no_text",
    "C129_workaround"
   ],
   "note": ""
  },
  {
   "property": "C130",
   "status": "proved",
   "theorems": [
    "C130_table",
    "C130_neutral",
    "C130_entry",
    "C130_unequal",
    "C130_missing",
    "C130_names"
   ],
   "note": ""
  },
  {
   "property": "C131",
   "status": "proved",
   "theorems": [
    "C131_file",
    "C131_period",
    "C131_simulate",
    "C131_sign",
    "C131_any_bound",
    "C131_rejected",
    "C131_given",
    "C131_irfs_parameters"
   ],
   "note": ""
  },
  {
   "property": "C132",
   "status": "proved",
   "theorems": [
    "C132_simulate",
    "C132_observations",
    "C132_irfs"
   ],
   "note": ""
  },
  {
   "property": "C133",
   "status": "proved",
   "theorems": [
    "C133_accepted",
    "C133_matrix",
    "C133_number",
    "C133_more_than_observables",
    "C133_no_effect"
   ],
   "note": ""
  },
  {
   "property": "C134",
   "status": "proved",
   "theorems": [
    "C134_draws",
    "C134_model_changes",
    "C134_model_stays",
    "C134_not_tried",
    "C134_pool",
    "C134_total",
    "C134_get_par",
    "C134_refuted"
   ],
   "note": ""
  },
  {
   "property": "C135",
   "status": "proved",
   "theorems": [
    "C135_dict",
    "C135_estimated",
    "C135_single",
    "C135_state",
    "C135_draws",
    "C135_draws_estimated",
    "C135_jitter",
    "C135_jitter_zero",
    "C135_no_jitter",
    "C135_refuted"
   ],
   "note": ""
  },
  {
   "property": "C136",
   "status": "proved",
   "theorems": [
    "C136_counts",
    "C136_plain",
    "C136_copies",
    "C136_refuted",
    "C136_useless_copy_refuted"
   ],
   "note": ""
  },
  {
   "property": "C137",
   "status": "proved",
   "theorems": [
    "C137_layout",
    "C137_fails",
    "C137_beginning",
    "C137_readable",
    "C137_text",
    "C137_refuted",
    "C137_breaks_refuted"
   ],
   "note": ""
  },
  {
   "property": "C138",
   "status": "proved",
   "theorems": [
    "C138_table",
    "C138_width",
    "C138_fails",
    "C138_refuted",
    "C138_values_refuted"
   ],
   "note": ""
  }
 ]
}