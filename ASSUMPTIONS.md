# Output of Print Assumptions per theorem

Generated by `tools/gen_assumptions.py` from the compiled files.

## No axioms (closed under the global context)

`C01_never_exceeds_budget` `C01_join_exact` `C02_join_quiescent` `C02_none_after_join` `C02_clock_set_back_refuted` `C03_progress` `C03_steps_bounded` `C03_call_returns` `C03_zero_threads_refuted` `C04_refuted` `C04_refuted_between_checks` `C04_partial` `C05_no_start_after_destructor` `C05_destructor_progress` `C05_destructor_returns` `C05_all_exited` `C06_refuted` `C06_throws_iff` `C06_partial` `C07_bookkeeping` `C24_max_key` `C25_neg_infinity_refuted` `C25_empty_refuted` `C25_nan_refuted` `C25_partial` `C26_binary64_refuted` `C27_quarters_refuted` `C28_two_entries_refuted` `C60_rand_int_range` `C60_every_value_possible` `C60_empty_range_undefined` `C30_terminates_in_bounds` `C30_rebuild_in_bounds` `C31_no_alias` `C33_smaller_refuted` `C34_uniform` `C13_create_d` `C53_sliced` `C53_base_partial` `C49_one_return_refuted` `C50_follows` `C50_stays_outside` `C50_copy` `C50_actions` `C68_context_refuted` `C54_history` `C54_get_put` `C54_get_put_const` `C54_independent` `C55_equals` `C55_action_equals` `C55_equivalence` `C55_action_equivalence` `C55_classes` `C55_action_classes` `C55_ids` `C55_hash` `C55_action_hash` `C55_id_hash` `C55_hash_range` `C55_null_asymmetric` `C55_decides` `C55_id_decides` `C56_opponent` `C15_one_mutex_partial` `C15_same_mutex_partial` `C15_several_mutexes_refuted` `C15_mutex_exists` `C15_no_mutex_refuted` `C16_trees_kept_partial` `C16_new_ids_partial` `C16_returned_usable` `C16_expired_means_gone` `C16_reuse_refuted` `C17_without_table_partial` `C17_table_partial` `C17_uct_partial` `C17_all_released` `C17_table_refuted` `C81_ints` `C81_states` `C81_states_printable` `C81_ids` `C81_actions_partial` `C81_actions_refuted` `C81_vectors` `C81_int_vectors` `C81_string_vectors_refuted` `C81_maps` `C81_equal_maps_refuted` `C81_table` `C81_table_alive` `C82_exclusive` `C82_searches` `C82_recommend_partial` `C82_recommend_refuted` `C82_table_refuted` `C83_serial` `C83_library_partial` `C83_refuted` `C94_routes` `C94_choices` `C102_exact` `C102_no_leak` `C102_subtree_kept` `C102_no_crash` `C102_runs` `C102_use_count`

## `ClassicalDedekindReals.sig_forall_dec`

`C08_never_selects_at_end` `C08_algorithms_run_the_engine` `C12_well_formed` `C13_children_stay` `C13_create_c` `C14_shared` `C14_tree` `C14_chance_parent` `C61_trial_progress` `C62_progress` `C53_columns_refuted` `C48_refuted` `C49_no_returns` `C50_node_has_state` `C56_opponent_uct` `C56_opponent_ments` `C56_every_node` `C56_roles` `C56_alternates` `C56_values` `C56_leaf` `C56_children` `C57_decision_nodes` `C57_chance_nodes` `C57_dots` `C57_layout` `C70_refuted` `C59_roles` `C94_decision_nodes` `C94_chance_nodes` `C94_every_algorithm` `C94_branching` `C94_table` `C94_table_states` `C94_exact` `C99_levels` `C100_one_worker` `C100_one_history` `C100_turns` `C100_reproducible`

## `ClassicalDedekindReals.sig_forall_dec`, `FunctionalExtensionality.functional_extensionality_dep`

`C26_sample_exact` `C27_refuted` `C27_partial` `C28_refuted` `C28_partial` `C29_alias_exact` `C29_after_rebuilds` `C30_thresholds` `C31_alias` `C32_delay` `C32_frequency_one` `C32_new_key_refuted` `C33_partial` `C33_no_alias` `C33_larger_refuted` `C34_mixture` `C08_path` `C09_backups` `C10_idle` `C10_always` `C11_one_per_trial` `C11_tree_size` `C11_full_length` `C61_trial_bounded` `C61_algorithm_trials_finish` `C61_looking_trials_finish` `C61_trials_drain` `C61_algorithm_completes` `C62_join_means_tree_idle` `C62_run_trials` `C18_value_is_mean` `C18_mean_between` `C18_order_irrelevant` `C19_first_selections_differ` `C19_untried_first` `C20_select_is_argmax` `C20_in_searches` `C20_epsilon` `C21_uct_recommendation` `C22_auto_bias_bounds` `C22_means_scale` `C22_scale_invariant` `C63_uct_never_fails` `C63_uct_completes` `C38_soft_value` `C38_dp_value` `C38_entropy` `C38_order_irrelevant` `C38_dp_order_irrelevant` `C38_between` `C39_best_child` `C39_order_irrelevant` `C42_node_temperature` `C51_entries` `C51_first_run_partial` `C51_later_runs_refuted` `C51_uninitialised_refuted` `C52_within_run` `C52_two_runs_partial` `C52_later_runs_refuted` `C52_timeout_refuted` `C52_overcount_refuted` `C66_spacing_refuted` `C66_runtime_entries_partial` `C47_all_rollouts` `C47_each_once` `C47_no_deadlock` `C47_terminates` `C67_never_fails` `C67_completes` `C67_returns` `C67_uct_evaluation` `C67_overflow` `C48_endless_refuted` `C48_no_actions_partial` `C49_mean` `C49_order` `C49_stddev_is_variance` `C58_fully_observable` `C58_sample_agrees` `C58_partially_observable` `C69_refuted` `C69_kept_partial` `C44_updates` `C59_uct_roles` `C59_uct_node` `C59_uct_recommends` `C59_dbments_recommends` `C59_dents_recommends` `C59_uct_search` `C77_no_action_starves` `C77_root` `C78_unique` `C84_same_code` `C84_rounded_values` `C86_own_heuristic_ignored_partial` `C89_values_exist` `C89_sparse_values_exist` `C89_values_unique` `C89_mixed_values_unique` `C90_visits` `C90_whole_explored` `C91_values_exist` `C91_values_unique` `C91_values_converge` `C91_actions_converge` `C91_rarely_tried` `C91_recommends_best` `C91_root_converges` `C91_root_recommends_best` `C91_certain_is_fair` `C91_root_certain` `C93_shares_mean_something` `C93_runs_exist` `C99_visits` `C99_visits_fit` `C99_sharp` `C99_uct` `C101_uct_search` `C101_uct_recommends` `C101_dbments_recommends` `C101_dents_recommends` `C104_base_defaults`

## `ClassicalDedekindReals.sig_forall_dec`, `ClassicalDedekindReals.sig_not_dec`, `FunctionalExtensionality.functional_extensionality_dep`

`C49_stddev_refuted`

## `ClassicalDedekindReals.sig_forall_dec`, `ClassicalDedekindReals.sig_not_dec`, `Classical_Prop.classic`, `FunctionalExtensionality.functional_extensionality_dep`

`C21_ments_recommendation` `C21_dbments_recommendation` `C21_dents_recommendation` `C21_est_recommendation` `C21_dents_recommendation_mean` `C21_est_recommendation_mean` `C21_rents_recommendation` `C21_tents_recommendation` `C23_uct_bonus` `C23_puct_bonus` `C35_soft_value` `C35_weights` `C35_backups` `C35_in_searches` `C36_distribution` `C36_dbments` `C36_est` `C36_dents` `C37_samples_refuted` `C37_samples_partial` `C38_in_searches` `C39_dbments_range` `C39_dents_range` `C39_est_range` `C41_mean_refuted` `C41_offset_uses_last_entry` `C41_mean_partial` `C42_decay` `C42_closed_forms` `C43_entropy_backup` `C43_entropy_bounds` `C43_entropy_bounds_dropped` `C64_prior_order_refuted` `C64_prior_order_partial` `C65_never_fails` `C65_completes` `C65_exploring` `C71_dbments_failures` `C71_dbments_exploring` `C71_dbments_completes` `C71_est_failures` `C71_est_exploring` `C71_est_completes` `C71_dents_failures_partial` `C71_dents_exploring` `C71_dents_completes` `C71_dents_refuted` `C72_dents_means` `C72_est_means` `C72_dents_bounds` `C72_est_bounds` `C73_entropies_partial` `C73_entropies_refuted` `C40_counts` `C40_soft_partial` `C40_dp_partial` `C40_entropy_partial` `C40_soft_mcts` `C40_dp_mcts` `C40_entropy_mcts` `C40_refuted` `C40_dp_refuted` `C74_ments` `C74_ments_fixed_temperature` `C74_dbments_soft` `C74_dbments_values` `C74_dents_values` `C74_est_values` `C74_dents_entropies` `C74_tents` `C74_tents_fixed_temperature` `C44_weights` `C44_in_searches` `C44_backup` `C45_current_values_refuted` `C45_soft_value_refuted` `C45_stored_values_partial` `C45_fixed_temperature_partial` `C45_selection_partial` `C46_tents_actions` `C46_tents_backups` `C46_rents_policies` `C75_rents_failures` `C75_rents_exploring` `C75_rents_completes` `C75_tents_failures` `C75_tents_exploring` `C75_tents_completes` `C76_rents_policy` `C76_rents_value` `C59_ments_node` `C59_dbments_node` `C59_dents_node` `C59_est_node` `C59_rents_node` `C59_tents_node` `C59_ments_recommends` `C59_ments_search` `C59_dbments_search` `C59_dents_search` `C59_est_search` `C59_rents_search` `C59_tents_search` `C77_uct_term` `C77_puct_term` `C78_dbments` `C78_dents` `C78_est` `C78_one_player` `C79_ments` `C79_dbments` `C79_tents` `C79_unique` `C79_offset` `C80_dbments` `C80_dents` `C80_est` `C84_doubles` `C84_double_values` `C85_range` `C85_integer_rewards` `C85_zero_pseudo_trials_refuted` `C86_heuristic_ignored_refuted` `C87_same_code` `C87_finite` `C87_close` `C87_average` `C88_finite` `C88_close` `C88_choice` `C89_soft_values_exist` `C89_dbments` `C89_dents` `C89_est` `C89_dbments_certain` `C89_dents_certain` `C89_est_certain` `C89_dbments_recommends` `C89_dents_recommends` `C89_est_recommends` `C89_dbments_recommends_best` `C89_dents_recommends_best` `C89_est_recommends_best` `C89_ments` `C89_dbments_soft` `C89_ments_certain` `C89_dbments_soft_certain` `C89_tents` `C89_tents_certain` `C90_ments` `C90_ments_whole` `C90_dbments` `C90_dbments_whole` `C90_est` `C90_est_whole` `C90_rents` `C90_rents_whole` `C90_tents` `C90_tents_whole` `C90_dents` `C90_dents_whole` `C90_dbments_values` `C90_ments_values` `C90_tents_values` `C91_uct_term` `C91_puct_term` `C92_finite` `C92_close` `C92_recommends` `C93_sampling_is_fair` `C93_values_converge` `C93_recommends_best` `C93_root_converges` `C93_root_recommends_best` `C95_ments_explores` `C95_dbments_explores` `C95_est_explores` `C95_rents_explores` `C95_tents_explores` `C95_dents_explores` `C95_dbments_values` `C95_dents_values` `C95_est_values` `C95_dbments_recommends_best` `C95_dents_recommends_best` `C95_est_recommends_best` `C95_ments_values` `C95_dbments_soft_values` `C95_tents_values` `C95_bold_settings_exist` `C95_ments_runs` `C95_dbments_runs` `C95_est_runs` `C95_rents_runs` `C95_tents_runs` `C95_dents_runs` `C96_values` `C96_recommends` `C96_recommends_best` `C96_soft_values` `C96_soft_choice` `C97_without_table` `C97_table` `C97_table_refuted` `C98_dbments` `C98_dents` `C98_est` `C98_dbments_recommends_best` `C98_dents_recommends_best` `C98_est_recommends_best` `C98_ments` `C99_ments` `C99_rents` `C99_tents` `C99_dbments` `C99_dents` `C99_est` `C100_overlap_refuted` `C101_ments_node` `C101_ments_recommends` `C101_ments_search` `C101_dbments_node` `C101_dbments_search` `C101_dents_node` `C101_dents_search` `C101_est_node` `C101_est_search` `C101_rents_node` `C101_rents_search` `C101_tents_node` `C101_tents_search` `C101_prior_refuted` `C103_same_code` `C103_values` `C103_range` `C103_recommends` `C103_integer_rewards` `C104_uct_defaults` `C104_entropy_defaults` `C104_uct_recommends` `C104_ments_recommends` `C104_dp_recommends` `C105_rents_values` `C105_rents_recommends` `C105_rents_defaults` `C106_tents_values` `C106_tents_recommends` `C106_tents_defaults`
