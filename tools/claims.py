CLAIMS = []
def claim(prop, status, theorems, note=""):
    CLAIMS.append({"property": prop, "status": status, "theorems": theorems.split(), "note": note})

claim("C01", "proved", "C01_never_exceeds_budget C01_join_exact")
claim("C02", "proved", "C02_join_quiescent C02_none_after_join C02_clock_set_back_refuted",
      "The second half needs a monotone clock; refuted otherwise because the pool uses system_clock.")
claim("C03", "proved", "C03_progress C03_steps_bounded C03_call_returns C03_zero_threads_refuted",
      "For at least one worker thread; with zero threads run_trials hangs (refuted).")
claim("C04", "partial", "C04_refuted C04_refuted_between_checks C04_partial",
      "False of the code: refuted by two schedules. C04_partial covers the case of a trial in progress when the limit passes.")
claim("C05", "proved", "C05_no_start_after_destructor C05_destructor_progress C05_destructor_returns C05_all_exited")
claim("C06", "partial", "C06_refuted C06_throws_iff C06_partial",
      "False of the code: refuted. C06_throws_iff states what is checked, C06_partial that calls after join are safe.")
claim("C07", "proved", "C07_bookkeeping")
claim("C24", "proved", "C24_max_key", "For every strictly totally ordered value type; doubles without NaN are such a type.")
claim("C25", "partial", "C25_neg_infinity_refuted C25_empty_refuted C25_nan_refuted C25_partial",
      "False of the code: maps of -infinity are a remainder by zero, NaN keys can win. C25_partial covers maps with a value not below lowest().")
claim("C26", "proved", "C26_sample_exact C26_binary64_refuted",
      "In exact arithmetic. With binary64 rounding it is refuted by ten entries of 0.1.")
claim("C27", "partial", "C27_refuted C27_quarters_refuted C27_partial",
      "False of the code for sums below one. C27_partial covers sums of at least one.")
claim("C28", "partial", "C28_refuted C28_two_entries_refuted C28_partial",
      "False of the code when a zero-weight entry is iterated after the last positive one; C28_partial covers the rest.")
claim("C60", "proved", "C60_rand_int_range C60_every_value_possible C60_empty_range_undefined")
claim("C29", "proved", "C29_alias_exact C29_after_rebuilds", "In exact arithmetic.")
claim("C30", "proved", "C30_terminates_in_bounds C30_rebuild_in_bounds C30_thresholds",
      "Termination and bounds hold in every arithmetic; the threshold range in exact arithmetic.")
claim("C31", "proved", "C31_no_alias C31_alias")
claim("C32", "partial", "C32_delay C32_frequency_one C32_new_key_refuted",
      "Updates of existing keys are proved; updating a new key is undefined behaviour in the code (refuted).")
claim("C33", "partial", "C33_partial C33_no_alias C33_larger_refuted C33_smaller_refuted",
      "False of the code when the size changes (refuted both ways); proved for equal sizes.")
claim("C34", "proved", "C34_uniform C34_mixture", "Mixture weights must be normalised, as sample_from_distribution requires.")
claim("C08", "proved", "C08_path C08_never_selects_at_end C08_algorithms_run_the_engine")
claim("C09", "proved", "C09_backups", "Rewards and heuristic values in exact arithmetic.")
claim("C10", "proved", "C10_idle C10_always")
claim("C11", "proved", "C11_one_per_trial C11_tree_size C11_full_length")
claim("C12", "proved", "C12_well_formed", "The depth bound needs max_depth >= 0.")
claim("C13", "proved", "C13_children_stay C13_create_d C13_create_c")
claim("C14", "proved", "C14_shared C14_tree C14_chance_parent", "One table mutex, one tree per manager (see C15, C16 for the rest).")
claim("C61", "proved", "C61_trial_bounded C61_trial_progress C61_algorithm_trials_finish C61_looking_trials_finish C61_trials_drain C61_algorithm_completes")
claim("C62", "proved", "C62_join_means_tree_idle C62_run_trials C62_progress")
claim("C18", "proved", "C18_value_is_mean C18_mean_between C18_order_irrelevant", "In exact arithmetic.")
claim("C19", "proved", "C19_first_selections_differ C19_untried_first", "For action lists without repetitions.")
claim("C20", "proved", "C20_select_is_argmax C20_in_searches C20_epsilon")
claim("C21", "proved", "C21_uct_recommendation C21_ments_recommendation C21_dbments_recommendation C21_dents_recommendation C21_est_recommendation C21_dents_recommendation_mean C21_est_recommendation_mean C21_rents_recommendation C21_tents_recommendation", "All algorithms. Values must fit in a double: implied by bounds on the environment for most algorithms, assumed of the Q values for RENTS and TENTS.")
claim("C22", "proved", "C22_auto_bias_bounds C22_means_scale C22_scale_invariant")
claim("C23", "proved", "C23_uct_bonus C23_puct_bonus", "PUCT for a non-negative power.")
claim("C63", "proved", "C63_uct_never_fails C63_uct_completes")
claim("C35", "proved", "C35_soft_value C35_weights C35_backups C35_in_searches", "Real arithmetic. The normalisation starts from the lowest double, so the largest weight is one only if some Q/temp is a double.")
claim("C36", "proved", "C36_distribution C36_dbments C36_est C36_dents", "Before tiny entries are dropped; for settings where the share of exploration is defined (at unvisited nodes epsilon / log(1) is 0/0 for epsilon = 0) and the share of the prior at most one.")
claim("C37", "partial", "C37_samples_refuted C37_samples_partial", "Refuted: entries below 1e-16 are dropped without renormalising, so a draw close enough to one makes select_action throw. Proved: this is the only failure, it needs a draw of at least 1 - |A|*1e-16 and an exploration share below |A|*1e-16.")
claim("C38", "proved", "C38_soft_value C38_dp_value C38_entropy C38_order_irrelevant C38_dp_order_irrelevant C38_between C38_in_searches")
claim("C39", "proved", "C39_best_child C39_order_irrelevant C39_dbments_range C39_dents_range C39_est_range")
claim("C41", "partial", "C41_mean_refuted C41_offset_uses_last_entry C41_mean_partial", "Refuted: the loop counter is never incremented, the offset uses the last entry iterated. Proved for priors with equal weights.")
claim("C42", "proved", "C42_decay C42_closed_forms C42_node_temperature")
claim("C43", "proved", "C43_entropy_backup C43_entropy_bounds C43_entropy_bounds_dropped")
claim("C64", "partial", "C64_prior_order_refuted C64_prior_order_partial", "Refuted: weights outside (1e-32, 1e32) get the constants -32 and 32 although log(1e-32) is about -73.7. Proved for weights inside the range.")
claim("C65", "proved", "C65_never_fails C65_completes C65_exploring")
claim("C51", "partial", "C51_entries C51_first_run_partial C51_later_runs_refuted C51_uninitialised_refuted", "Refuted: reset_start_time clears the count at the last entry but not the trial count, so later runs log at other trials; and the trial count is never initialised. Proved: the exact positions logged in any run (C51_entries), which are every d-th trial in a first run whose counter starts at 0.")
claim("C52", "partial", "C52_within_run C52_two_runs_partial C52_later_runs_refuted C52_timeout_refuted C52_overcount_refuted", "Refuted: the pool compares its total trial count with the trials of the last run, so runs after the first are not added to the prior runtime, or are added in the middle; runs ended early are not added. Proved: within a run, and for two runs of which the first is complete.")
claim("C53", "partial", "C53_sliced C53_columns_refuted C53_base_partial", "Refuted: entries are stored by value in a vector of the base type.")
claim("C66", "partial", "C66_spacing_refuted C66_runtime_entries_partial", "Refuted: after a long trial the threshold is behind and several trials in a row are logged. Proved: the i-th entry is not before i*runtime_delta, so the count bound holds.")
claim("C47", "proved", "C47_all_rollouts C47_each_once C47_no_deadlock C47_terminates", "Assumes that sampling functions use the random generator only by drawing from it.")
claim("C67", "proved", "C67_never_fails C67_completes C67_returns C67_uct_evaluation C67_overflow", "C67_overflow: if n+k-1 exceeds INT_MAX some thread overflows its counter and run_rollouts does not return.")
claim("C48", "partial", "C48_refuted C48_endless_refuted C48_no_actions_partial", "Refuted: num_actions_taken is never incremented, so the limit has no effect unless it is <= 0.")
claim("C49", "partial", "C49_mean C49_order C49_no_returns C49_stddev_is_variance C49_stddev_refuted C49_one_return_refuted", "The mean is right. Refuted for get_stddev_return: it returns the sample variance, and NaN for one return.")
claim("C50", "proved", "C50_follows C50_stays_outside C50_copy C50_actions C50_node_has_state C47_all_rollouts", "In C47_all_rollouts the rollout relation says the same about every step of a run.")
claim("C68", "partial", "C68_context_refuted", "Refuted: the context is a temporary, destroyed at the end of the statement. None of the library's recommendation functions reads it, so only user-defined nodes are affected (C67_never_fails covers those that do not read it).")
claim("C54", "proved", "C54_history C54_get_put C54_get_put_const C54_independent")
claim("C55", "proved", "C55_equals C55_action_equals C55_equivalence C55_action_equivalence C55_classes C55_action_classes C55_ids C55_hash C55_action_hash C55_id_hash C55_hash_range C55_null_asymmetric C55_decides C55_id_decides", "Direct instances of the base classes State, Observation, Action throw in equals and hash and are excluded (C55_null_asymmetric).")
claim("C56", "proved", "C56_opponent C56_opponent_uct C56_opponent_ments C56_every_node C56_roles C56_alternates C56_values C56_leaf C56_children")
claim("C57", "proved", "C57_decision_nodes C57_chance_nodes C57_dots C57_layout")
claim("C58", "proved", "C58_fully_observable C58_sample_agrees C58_partially_observable")
claim("C69", "partial", "C69_refuted C69_kept_partial", "Refuted: the template's typed maps are keyed by pointer, the interface map by value, and the conversion overwrites, so probability is lost if two pointers point to equal states. Proved if the states are pairwise different.")
claim("C70", "partial", "C70_refuted", "Refuted: the template inserts through a null shared_ptr.")
claim("C15", "partial", "C15_one_mutex_partial C15_same_mutex_partial C15_several_mutexes_refuted C15_mutex_exists C15_no_mutex_refuted", "Refuted: with several mutexes two ids guarded by different mutexes are looked up and inserted in the same unordered_map concurrently; with 0 mutexes a mutex outside the vector is locked. Proved for one mutex (the default) and for ids with the same mutex.")
claim("C16", "partial", "C16_trees_kept_partial C16_new_ids_partial C16_returned_usable C16_expired_means_gone C16_reuse_refuted", "Refuted: the table keeps weak pointers of destroyed nodes, and creating a child with such an id throws std::bad_weak_ptr for ever after. Proved while no tree is given up, and for new ids.")
claim("C17", "partial", "C17_without_table_partial C17_table_partial C17_uct_partial C17_all_released C17_table_refuted", "Refuted with transposition table for MENTS, RENTS, DBMENTS, DENTS, EST, TENTS: two chance nodes that share children lock them in different orders. Proved for every algorithm without table, and for UCT and PUCT with table.")
claim("C71", "partial", "C71_dbments_failures C71_dbments_exploring C71_dbments_completes C71_est_failures C71_est_exploring C71_est_completes C71_dents_failures_partial C71_dents_exploring C71_dents_completes C71_dents_refuted", "Proved for DB-MENTS and EST. Refuted for DENTS with epsilon 0: the constructor computes a NaN entropy and the second trial throws; proved for DENTS with positive epsilon or initial visits.")
claim("C72", "proved", "C72_dents_means C72_est_means C72_dents_bounds C72_est_bounds")
claim("C73", "partial", "C73_entropies_partial C73_entropies_refuted", "Refuted for epsilon 0 (NaN in the constructor); proved for positive epsilon or initial visits.")
claim("C40", "partial", "C40_counts C40_soft_partial C40_dp_partial C40_entropy_partial C40_soft_mcts C40_dp_mcts C40_entropy_mcts C40_refuted C40_dp_refuted", "Refuted: in mcts_mode soft values weigh an outcome that can be left with one sample less, dynamic programming values count the constructor's heuristic value as a sample. Exact weights proved for all algorithms and modes without transposition table.")
claim("C74", "proved", "C74_ments C74_ments_fixed_temperature C74_dbments_soft C74_dbments_values C74_dents_values C74_est_values C74_dents_entropies C74_tents C74_tents_fixed_temperature", "Without transposition table. With a temperature decay the temperature is the one at the last backup. The values the theorems speak about are those of the children at the end.")
claim("C44", "proved", "C44_weights C44_updates C44_in_searches C44_backup")
claim("C45", "partial", "C45_current_values_refuted C45_soft_value_refuted C45_stored_values_partial C45_fixed_temperature_partial C45_selection_partial", "Refuted with a temperature decay function: only the selected action's entry is refreshed, so other entries keep the temperature of an earlier visit, and the soft value can fall below the best Q value. Proved without decay, at nodes no trial is about to back up (for one worker: at every selection).")
claim("C46", "proved", "C46_tents_actions C46_tents_backups C46_rents_policies")
claim("C75", "proved", "C75_rents_failures C75_rents_exploring C75_rents_completes C75_tents_failures C75_tents_exploring C75_tents_completes")
claim("C76", "proved", "C76_rents_policy C76_rents_value")
claim("C59", "proved", "C59_uct_roles C59_roles C59_uct_node C59_ments_node C59_dbments_node C59_dents_node C59_est_node C59_rents_node C59_tents_node C59_uct_recommends C59_ments_recommends C59_dbments_recommends C59_dents_recommends C59_uct_search C59_ments_search C59_dbments_search C59_dents_search C59_est_search C59_rents_search C59_tents_search", "For two-player settings. The negated problem has negated rewards, heuristic and default Q value and starts one timestep later, so that the player moves where the opponent moved.")
claim("C77", "proved", "C77_no_action_starves C77_root C77_uct_term C77_puct_term")
claim("C78", "proved", "C78_dbments C78_dents C78_est C78_unique C78_one_player")
claim("C79", "proved", "C79_ments C79_dbments C79_tents C79_unique C79_offset")
claim("C80", "proved", "C80_dbments C80_dents C80_est", "For recommendations by value with a visit threshold of at most 1; C21 covers the other settings.")
claim("C81", "partial", "C81_ints C81_states C81_states_printable C81_ids C81_actions_partial C81_actions_refuted C81_vectors C81_int_vectors C81_string_vectors_refuted C81_maps C81_equal_maps_refuted C81_table C81_table_alive", "Refuted for actions of different classes (7 and \"7\"), for vectors of string actions (commas are not escaped) and for equal maps with different iteration orders. Proved for integers, states, ids, actions of one class and vectors of int actions.")
claim("C82", "partial", "C82_exclusive C82_searches C82_recommend_partial C82_recommend_refuted C82_table_refuted", "Proved for searches and for recommendations by value of DB-MENTS, DENTS and EST. Refuted for the recommendations of UCT and MENTS and for recommendations by visits, which read the children without locking them, and for the table with more than one mutex (C15).")
claim("C83", "partial", "C83_serial C83_library_partial C83_refuted", "Proved for programs whose sections look at other nodes or the table at most once, which includes UCT, PUCT, MENTS, RENTS, EST and TENTS. Refuted for DB-MENTS and DENTS: their backups unlock the children and lock them again, so that a node's values can come from different states of its children until the next backup.")
claim("C84", "proved", "C84_same_code C84_doubles C84_double_values C84_rounded_values", "Rewards and heuristic values of absolute value between 2^-900 and 2^900 (the bound, not each of them). The rounding of UCB terms is covered because selections are arbitrary.")
claim("C85", "partial", "C85_range C85_integer_rewards C85_zero_pseudo_trials_refuted", "Proved for decision nodes without a heuristic or with at least one pseudo trial, and for chance nodes; the range is that of the returns as the code adds them up, which for integer rewards are the true returns. Refuted for a heuristic without pseudo trials (the default number): the heuristic value is subtracted again with a rounding error.")
claim("C86", "partial", "C86_heuristic_ignored_refuted C86_own_heuristic_ignored_partial", "Refuted: the heuristic value of the state where a trial ends is part of every return. Proved: the heuristic value of a node does not count in its own average.")
claim("C87", "proved", "C87_same_code C87_finite C87_close C87_average", "For one backup. Values up to 2^900, temperature between 2^-900 and 2^900; for the error bound values up to 2^50 times the temperature. exp and log are arbitrary functions with an error bound; correctly rounded ones meet it.")
claim("C88", "proved", "C88_finite C88_close C88_choice", "Without prior_fn; C88_close and C88_choice for a fixed temperature and without transposition table. Selections and samples are arbitrary, which covers every way their probabilities are rounded. Up to 2^31 actions and 2^20 outcomes, counts below 2^31 (an int).")
claim("C89", "proved", "C89_values_exist C89_soft_values_exist C89_sparse_values_exist C89_values_unique C89_mixed_values_unique C89_dbments C89_dents C89_est C89_dbments_certain C89_dents_certain C89_est_certain C89_dbments_recommends C89_dents_recommends C89_est_recommends C89_dbments_recommends_best C89_dents_recommends_best C89_est_recommends_best C89_ments C89_dbments_soft C89_ments_certain C89_dbments_soft_certain C89_tents C89_tents_certain", "Exact arithmetic, without transposition table; the soft values at a fixed temperature. DENTS and EST with use_dp_value. That trees become explored and outcomes are sampled as often as they are likely is a hypothesis (eps is the error that the search has so far), except for deterministic environments, where only exploration is.")
claim("C90", "proved", "C90_visits C90_ments C90_ments_whole C90_dbments C90_dbments_whole C90_est C90_est_whole C90_rents C90_rents_whole C90_tents C90_tents_whole C90_dents C90_dents_whole C90_whole_explored C90_dbments_values C90_ments_values C90_tents_values", "Exact arithmetic. The exploration share of each action must stay above 10^-16 (below, the code drops the action), which bounds the number of visits for a given epsilon (V); DENTS also needs a defined entropy of unvisited nodes (C73). The draws are arbitrary reals in [0,1).")
claim("C91", "proved", "C91_values_exist C91_values_unique C91_values_converge C91_actions_converge C91_rarely_tried C91_recommends_best C91_root_converges C91_root_recommends_best C91_certain_is_fair C91_root_certain C91_uct_term C91_puct_term", "Exact arithmetic, no transposition table, epsilon-greedy exploration off. That sampling is fair (the law of large numbers holds on the run, at the speed K) is a hypothesis on the run here; C93 proves that it holds with probability close to 1. It is proved for certain outcomes and shown for a random environment in ConvCoin.v.")
claim("C92", "proved", "C92_finite C92_close C92_recommends", "C92_close and C92_recommends without transposition table, the latter for a visit threshold of at most 1 (so that every explored action counts). Selections and samples are arbitrary. Up to 2^20 outcomes, counts below 2^31 (an int).")
claim("C93", "proved", "C93_shares_mean_something C93_sampling_is_fair C93_values_converge C93_recommends_best C93_root_converges C93_root_recommends_best C93_runs_exist", "Exact arithmetic, no transposition table, epsilon-greedy exploration off (C93_sampling_is_fair and C93_runs_exist also with both). Uniform numbers are T independent draws from N equally likely values, where all outcome probabilities are multiples of 1/N; probability is the share of the N^T sequences. That the engine behind the generator draws so is an assumption about std::mt19937.")
claim("C94", "proved", "C94_routes C94_choices C94_decision_nodes C94_chance_nodes C94_every_algorithm C94_branching C94_table C94_table_states C94_exact", "Counts nodes (and the algorithm records that go with them), not bytes. C94_exact without transposition table, for environments that list no action or outcome twice.")
claim("C95", "proved", "C95_ments_explores C95_dbments_explores C95_est_explores C95_rents_explores C95_tents_explores C95_dents_explores C95_dbments_values C95_dents_values C95_est_values C95_dbments_recommends_best C95_dents_recommends_best C95_est_recommends_best C95_ments_values C95_dbments_soft_values C95_tents_values C95_bold_settings_exist C95_ments_runs C95_dbments_runs C95_est_runs C95_rents_runs C95_tents_runs C95_dents_runs", "Exact arithmetic, no transposition table. Uniform numbers as in C93, with 2 <= q N. The exploration share q is at least 10^-16 (below, the code drops actions) and must last for the number of visits in question (bold); C95_bold_settings_exist shows how to choose epsilon for it. Soft values only at a fixed temperature; recommendations by value with a visit threshold of at most 1.")
claim("C96", "proved", "C96_values C96_recommends C96_recommends_best C96_soft_values C96_soft_choice", "No transposition table. Numbers in range as in C92 and C88. For MENTS the action with the highest computed value is covered, not the code of its recommendation.")
claim("C97", "partial", "C97_without_table C97_table C97_table_refuted", "False with the transposition table: backups weigh the children of a chance node by all visits of the shared child, not by the outcomes of that chance node. Proved without the table. C97_table gives the search for every length.")
claim("C98", "proved", "C98_dbments C98_dents C98_est C98_dbments_recommends_best C98_dents_recommends_best C98_est_recommends_best C98_ments", "Complements C97: with certain outcomes sharing nodes does no lasting harm. A round is a stretch of the search in which every action known before was tried once more.")
claim("C99", "proved", "C99_levels C99_visits C99_visits_fit C99_sharp C99_uct C99_ments C99_rents C99_tents C99_dbments C99_dents C99_est", "The model counts in unbounded integers; these theorems bound them, so that int arithmetic agrees with it. C99_sharp shows that the bound on trials cannot be improved.")
claim("C100", "proved", "C100_one_worker C100_one_history C100_turns C100_reproducible C100_overlap_refuted", "C100_overlap_refuted shows that the schedule matters when trials overlap, as the property says. Iteration orders of maps are part of the configuration; environments are functions.")
claim("C101", "proved", "C101_uct_search C101_uct_recommends C101_ments_node C101_ments_recommends C101_ments_search C101_dbments_node C101_dbments_recommends C101_dbments_search C101_dents_node C101_dents_recommends C101_dents_search C101_est_node C101_est_search C101_rents_node C101_rents_search C101_tents_node C101_tents_search C101_prior_refuted", "C101_prior_refuted shows that with a prior the unit matters, as the property says. Recommendations by value assume values that are doubles in both units. Hash maps are assumed to be iterated in an order that depends on the keys only.")
claim("C102", "proved", "C102_exact C102_no_leak C102_subtree_kept C102_no_crash C102_runs C102_use_count", "Objects are destroyed; the memory block of a destroyed node may stay allocated while the table has a weak pointer to it (make_shared). Justifies the model of C16, where nodes exist while they can be reached.")
claim("C103", "proved", "C103_same_code C103_values C103_range C103_recommends C103_integer_rewards", "The theorems hold for every algorithm whose nodes keep average returns like EmpNode; C103_same_code shows that the models of DENTS and EST over real numbers are such algorithms. Action selection is arbitrary, so however its probabilities are rounded is covered.")
claim("C104", "proved", "C104_uct_defaults C104_entropy_defaults C104_base_defaults C104_uct_recommends C104_ments_recommends C104_dp_recommends", "Over real numbers (rounding of action values: C84, C92, C103). The bound on visit counters of MENTS and its relatives is the largest int; beyond it the counters themselves overflow.")
claim("C105", "proved", "C105_rents_values C105_rents_recommends C105_rents_defaults", "Over real numbers. The bound also discharges the premise of C76 that action values over the temperature are not below the lowest double.")
claim("C106", "proved", "C106_tents_values C106_tents_recommends C106_tents_defaults", "Over real numbers.")
