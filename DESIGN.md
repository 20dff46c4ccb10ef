# Formal model of thts-plus-plus in Rocq

The model lives in `rocq/theories/` (logical name `Verif`). For each area there are up to four kinds of file:

* `XModel.v`: Gallina definitions, each citing the C++ file and lines it models and what is simplified. No proofs.
* `XSpec.v`: a small specification vocabulary written without the model's helpers.
* `XProofs.v`, `XInv.v`, `XRun.v`, `XResults.v`, `XWitness.v`: lemmas, invariants, concrete runs.
* `XTheorems.v`: the property theorems, closed by `exact lemma.`, with `Print Assumptions` beneath and `Example`s that
  meet the hypotheses.

`properties.jsonl` lists the properties, `MANIFEST.json` the theorems that settle them, `ASSUMPTIONS.md` what
`Print Assumptions` prints for each of them, and `seeded/LOG.jsonl` the wrong programs the theorems were tested against.
(`tools/` holds the scripts that write these files and this one.)

## 1. Reading the results

* A property the code satisfies has status *proved*; its theorems quantify over all inputs, states, schedules and
  random streams the property speaks about. There is no bound on sizes, depths, threads or steps.
* A property the code does **not** satisfy has a theorem ending in `_refuted`, which exhibits a concrete input, run or
  history of the model that breaks it, and (where something is true) a theorem ending in `_partial` that says under which
  extra hypotheses it holds. Its status is *partial*. The full statement stays in `properties.jsonl`.
* Hypotheses on environments and settings (`env_ok`, `temps_ok`, `prior_ok`, `values_ok`, `few_actions`, `explore_ok`, `sane`, …) are
  defined in the `Spec` files and are met by the examples `uct_ex_conf`/`uct_ex`, `ments_ex_conf`/`ments_ex` (a two-player walk
  with random outcomes), for which complete searches on several threads are shown to exist.

## 2. Modelling decisions

* **Numbers.** `double` is idealised as the real numbers `R` of Coq's standard library wherever the property is about
  exact arithmetic. Code that needs only + - * / and comparisons is written once over a record of operations (`numops`,
  NumOps.v) and instantiated with `R` (`R_ops`) and with binary64 (`F_ops`, the standard library's axiom-free `SpecFloat`); refutations
  that depend on rounding, infinities or NaN use the latter. The returns and averages of UCT (and, in Emp64Model.v, C103, those of DENTS and EST) are also modelled in binary64 and in
  real arithmetic with an arbitrary rounding (RoundModel.v), and C84, C85 bound what rounding does to them. So are the soft values and averages of MENTS (LseModel.v, C87, and over whole searches Ments64Model.v, C88), with exp and log any functions that have a bounded error, and the dynamic programming values of DB-MENTS, DENTS and EST (Dp64Model.v, C92); C96 adds the distance to the values of the environment. `std::numeric_limits<double>::lowest()` is the real `dbl_lowest`. Where
  the code itself produces NaN (entropies in DENTS with epsilon 0), the value is `option R` with `None` for NaN. `int` is `Z`;
  overflow is modelled only where a theorem speaks about it (C67_overflow); C99 bounds the counters of nodes, so that they agree with the unbounded integers of the model for 2^31 trials.
* **Maps.** `std::unordered_map` is an association list in iteration order. Maps built by the code are handed to
  an arbitrary permutation (`uorder`, `morder`) before being iterated, so theorems hold for every iteration order. `std::multimap` (TENTS) is
  a sorted list with insertion after equal keys. `map::at` of a missing key throws.
* **Randomness.** A stream of integers and of reals in [0,1) (`rng`), consumed by counters; theorems quantify over all streams.
  "Probability" is the number of indices or the length of the interval of draws that lead to a result; over whole searches (C93, C95) it is the share of all sequences of draws from finitely many equally likely values.
* **Exceptions and undefined behaviour** are distinct outcomes: `Ok x | Throw | UB`. A search that reaches one stops with
  that failure recorded (`afail`), so "never fails" is a statement about all runs.
* **Concurrency.** Small-step labelled transition systems: one label per atomic action of one thread. Theorems are inductions over
  arbitrary label lists. In the engine one step is one locked section of a trial (visit+select+create child, sample+create child, backup of one
  node), or, where a backup locks and reads the children several times (DB-MENTS, DENTS), one of these looks: other threads
  may change the children between two looks, the node itself stays locked (`blocked`); LockModel.v models the lock operations themselves, one by one.
* **Algorithms** are records (`algo` in AlgoModel.v) of node members, constructors and the virtual functions visit, select_action,
  sample_observation and backup; they are plugged into one engine, so that facts about the engine (C08-C14, C61, C62) hold for all of them.
* **Shared pointers.** Nodes are heap indices. Lifetimes matter only for the transposition table, where TTModel.v models
  weak pointers and destruction.

## 3. What is modelled

| File(s) in /repo | Model |
|---|---|
| src/thts.cpp, include/thts.h (ThtsPool: constructor, destructor, workers, run_trials, join, set_new_env; trial loop and backups) | PoolModel.v (threads, mutex, condition variables, clock, spurious wakeups), EngineModel.v (trials on the tree), ProductModel.v (both together) |
| src/thts_decision_node.cpp, thts_chance_node.cpp, headers | EngineModel.v (constructors, create/get/has child, visits, leaf tests), NodeModel.v (roles, heuristic of sinks, pretty printing), TTModel.v (transposition table), LockModel.v (locks) |
| src/algorithms/uct/* (UCT, PUCT nodes; manager settings) | UctModel.v; RoundModel.v (returns and averages in doubles) |
| src/algorithms/ments/* (MENTS, DB-MENTS, DENTS, RENTS, TENTS), src/algorithms/est/*, src/algorithms/common/* (dp, emp, ent nodes, decaying temperature) | MentsModel.v; LseModel.v, Ments64Model.v (soft values, averages and MENTS searches in doubles) |
| src/algorithms/*/..._logger.cpp, src/thts_logger.cpp | LoggerModel.v |
| src/mc_eval.cpp | EvalModel.v |
| src/helper_templates.cc (get_max_key_break_ties_randomly, sample_from_distribution) and the random functions of include/thts_manager.h | HelperModel.v, MapModel.v |
| printing: get_pretty_print_string and operator<< of src/thts_types.cpp, vector_pretty_print_string and unordered_map_pretty_print_string of src/helper_templates.cc | PrintModel.v |
| where nodes, table, generator and logger are accessed between the lock operations of LockModel.v: src/thts.cpp, the select, sample, backup and recommend methods of all algorithms | AccessModel.v |
| the same sections with their effects, at the granularity of single operations | SerialModel.v |
| src/distributions/* | DistModel.v |
| src/thts_env.cpp, include/thts_env.h, include/templates/thts_env_template.h | EnvModel.v |
| src/thts_env_context.cpp | ContextModel.v |
| src/thts_types.cpp | TypesModel.v |

**Not modelled**: rounding inside the algorithms other than in the returns and averages of UCT, DENTS and EST, the soft backups and averages of MENTS and dynamic programming backups (section 2); memory layout, allocation failure, exceptions thrown by user-defined environments
inside a trial; the C++ memory model below the level of mutexes (C82 shows that data are touched only under their locks, so that treating a
locked section as one step is justified; C83 shows this for UCT, PUCT, MENTS, RENTS, EST and TENTS. The backups of DB-MENTS and DENTS lock and read the children two or three times and unlock them in between: in AlgoModel.v each of these looks is a step of its own, see section 2; where the code touches data without the lock this is part of the model or a finding below); `include/templates/thts_*_node_template.h` (text to be copied by users; not compiled; its generated part only casts
arguments and forwards to the modelled interface); how doubles and pointers are printed; the contents of log rows beyond the
columns and positions of C51-C53, C66; /repo/test and /repo/external.

## 4. Trusted base

* Coq 8.16.1's kernel (type checker, including its virtual machine where a proof uses `vm_compute`), the compilation of the files by
  coqc, and the standard library. Flocq is used in the proofs of C84 and C85 (DoubleProofs.v) and in no definition or statement: the
  theorems there speak of the standard library's `SpecFloat` and reals. It brings no axioms of its own.
* Axioms: only those of the standard library's real numbers and the classical logic they use, as printed by `Print Assumptions` under each theorem and collected in
  `ASSUMPTIONS.md`: `ClassicalDedekindReals.sig_forall_dec`, `ClassicalDedekindReals.sig_not_dec`,
  `FunctionalExtensionality.functional_extensionality_dep` and `Classical_Prop.classic`. Of the theorems in the manifest, those on pool, locks, table, types, contexts, nodes
  and generic helpers are closed under the global context.
* The model is a hand translation: that the definitions say what the cited C++ lines do is not checked by machine. The comments cite lines so that this can be reviewed,
  and the mutation log shows that the theorems react to realistic changes of the definitions.
* No axioms, parameters, admitted proofs, functors, module types or plugins of our own; section variables are discharged.

## 5. Per property

| Property | Status | What is modelled | How it is proved | Theorems (full notes in MANIFEST.json) |
|---|---|---|---|---|
| C01 A run never exceeds its trial budget and, unless time runs out, uses all of it | proved | PoolModel.v: n workers, client, mutex, condition variables, clock, spurious wakeups | inductive invariant over all label lists | `C01_never_exceeds_budget` `C01_join_exact` |
| C02 When join returns no trial is in progress | proved | PoolModel.v: n workers, client, mutex, condition variables, clock, spurious wakeups | inductive invariant over all label lists | `C02_join_quiescent` `C02_none_after_join` `C02_clock_set_back_refuted` |
| C03 A blocking run without time-out always returns | proved | PoolModel.v: n workers, client, mutex, condition variables, clock, spurious wakeups | invariant for progress, decreasing measure for the number of steps | `C03_progress` `C03_steps_bounded` `C03_call_returns` `C03_zero_threads_refuted` |
| C04 A blocking run with a time limit always returns | partial | PoolModel.v: n workers, client, mutex, condition variables, clock, spurious wakeups | refuted by explicit schedules and an invariant of all their continuations; positive cases by invariant | `C04_refuted` `C04_refuted_between_checks` `C04_partial` |
| C05 Destroying a pool stops every worker and starts nothing new | proved | PoolModel.v: n workers, client, mutex, condition variables, clock, spurious wakeups | invariant for progress, decreasing measure for the number of steps | `C05_no_start_after_destructor` `C05_destructor_progress` `C05_destructor_returns` `C05_all_exited` |
| C06 set_new_env refuses to change the tree while trials are running | partial | PoolModel.v: n workers, client, mutex, condition variables, clock, spurious wakeups | refuted by explicit schedules and an invariant of all their continuations; positive cases by invariant | `C06_refuted` `C06_throws_iff` `C06_partial` |
| C07 Pool bookkeeping is exact | proved | PoolModel.v: n workers, client, mutex, condition variables, clock, spurious wakeups | inductive invariant over all label lists | `C07_bookkeeping` |
| C08 A trial walks a root-to-leaf path and stops where it should | proved | EngineModel.v: heap of nodes, any number of threads running trials in any interleaving | inductive invariants over label lists | `C08_path` `C08_never_selects_at_end` `C08_algorithms_run_the_engine` |
| C09 Backups run leaf to root with exactly the right rewards | proved | EngineModel.v: heap of nodes, any number of threads running trials in any interleaving | inductive invariants over label lists | `C09_backups` |
| C10 Visit and backup counts balance once the search is idle | proved | EngineModel.v: heap of nodes, any number of threads running trials in any interleaving | counting invariants relating the event trace to visit counts and heap size | `C10_idle` `C10_always` |
| C11 mcts_mode adds at most one decision node per trial | proved | EngineModel.v: heap of nodes, any number of threads running trials in any interleaving | counting invariants relating the event trace to visit counts and heap size | `C11_one_per_trial` `C11_tree_size` `C11_full_length` |
| C12 The tree is well formed | proved | EngineModel.v: heap of nodes, any number of threads running trials in any interleaving | inductive invariants over label lists | `C12_well_formed` |
| C13 Children are never lost or replaced | proved | EngineModel.v: heap of nodes, any number of threads running trials in any interleaving | inductive invariants over label lists | `C13_children_stay` `C13_create_d` `C13_create_c` |
| C14 The transposition table shares exactly the right nodes | proved | EngineModel.v: heap of nodes, any number of threads running trials in any interleaving | inductive invariants over label lists | `C14_shared` `C14_tree` `C14_chance_parent` |
| C15 Several table mutexes still protect the table | partial | TTModel.v: table, ids, hash, mutex vector, weak pointers, destruction of trees | invariants over histories; refuted by witness histories | `C15_one_mutex_partial` `C15_same_mutex_partial` `C15_several_mutexes_refuted` `C15_mutex_exists` `C15_no_mutex_refuted` |
| C16 A manager with a transposition table can be reused | partial | TTModel.v: table, ids, hash, mutex vector, weak pointers, destruction of trees | invariants over histories; refuted by witness histories | `C16_trees_kept_partial` `C16_new_ids_partial` `C16_returned_usable` `C16_expired_means_gone` `C16_reuse_refuted` |
| C17 Node locking cannot deadlock | partial | LockModel.v: every lock and unlock of a trial, per algorithm, on any graph | rank argument (locks are taken downwards); deadlock state exhibited for shared children | `C17_without_table_partial` `C17_table_partial` `C17_uct_partial` `C17_all_released` `C17_table_refuted` |
| C18 UCT node values are exact averages | proved | UctModel.v backups, history of returns per node (AlgoHist.v) | induction over runs; algebra of running means | `C18_value_is_mean` `C18_mean_between` `C18_order_irrelevant` |
| C19 UCT tries every action before repeating one | proved | UctModel.v select_action | characterisation of the set of possible results (picks), then invariants over runs | `C19_first_selections_differ` `C19_untried_first` |
| C20 UCB selection is the argmax for the player to move | proved | UctModel.v select_action | characterisation of the set of possible results (picks), then invariants over runs | `C20_select_is_argmax` `C20_in_searches` `C20_epsilon` |
| C21 Recommendations are valid and optimal for the chosen criterion | proved | recommend_action of all algorithms | characterisation of the set of possible results; value bounds by invariants over runs | `C21_uct_recommendation` `C21_ments_recommendation` `C21_dbments_recommendation` `C21_dents_recommendation` `C21_est_recommendation` `C21_dents_recommendation_mean` `C21_est_recommendation_mean` `C21_rents_recommendation` `C21_tents_recommendation` |
| C22 The automatic bias makes UCT indifferent to reward scale | proved | UctModel.v bias and exploration terms | real analysis | `C22_auto_bias_bounds` `C22_means_scale` `C22_scale_invariant` |
| C23 Exploration bonuses behave like bonuses | proved | UctModel.v bias and exploration terms | real analysis | `C23_uct_bonus` `C23_puct_bonus` |
| C24 Max-key helper returns a maximal key and is fair between ties | proved | HelperModel.v over an arbitrary ordered value type | induction over the map; refutations by evaluation | `C24_max_key` |
| C25 Max-key helper is total | partial | HelperModel.v over an arbitrary ordered value type | induction over the map; refutations by evaluation | `C25_neg_infinity_refuted` `C25_empty_refuted` `C25_nan_refuted` `C25_partial` |
| C26 Sampling a normalised distribution is exact | proved | HelperModel.v over numops (reals and binary64) | induction over the map; refutations by evaluation in binary64 | `C26_sample_exact` `C26_binary64_refuted` |
| C27 Sampling with normalised=false accepts any positive weights | partial | HelperModel.v over numops (reals and binary64) | induction over the map; refutations by evaluation in binary64 | `C27_refuted` `C27_quarters_refuted` `C27_partial` |
| C28 Zero-probability outcomes are tolerated and never sampled | partial | HelperModel.v over numops (reals and binary64) | induction over the map; refutations by evaluation in binary64 | `C28_refuted` `C28_two_entries_refuted` `C28_partial` |
| C29 Alias tables represent the weights exactly | proved | DistModel.v, alias table construction and sampling over numops | loop invariant (mass conservation), measure; refutations by evaluation | `C29_alias_exact` `C29_after_rebuilds` |
| C30 Alias construction terminates within bounds | proved | DistModel.v, alias table construction and sampling over numops | loop invariant (mass conservation), measure; refutations by evaluation | `C30_terminates_in_bounds` `C30_rebuild_in_bounds` `C30_thresholds` |
| C31 Sampling a categorical distribution returns keys of positive weight only | proved | DistModel.v, alias table construction and sampling over numops | loop invariant (mass conservation), measure; refutations by evaluation | `C31_no_alias` `C31_alias` |
| C32 Updating single weights is reflected within the stated delay | partial | DistModel.v, alias table construction and sampling over numops | loop invariant (mass conservation), measure; refutations by evaluation | `C32_delay` `C32_frequency_one` `C32_new_key_refuted` |
| C33 Replacing the whole distribution works for any new size | partial | DistModel.v, alias table construction and sampling over numops | loop invariant (mass conservation), measure; refutations by evaluation | `C33_partial` `C33_no_alias` `C33_larger_refuted` `C33_smaller_refuted` |
| C34 Uniform and mixture distributions sample what they say | proved | DistModel.v | counting of indices; induction over components | `C34_uniform` `C34_mixture` |
| C35 MENTS soft values are log-sum-exp values and lie in the right band | proved | MentsModel.v weights, policy and sampling; also DB-MENTS, EST, DENTS | log-sum-exp algebra; refutation by a witness node and draw | `C35_soft_value` `C35_weights` `C35_backups` `C35_in_searches` |
| C36 MENTS action probabilities form a distribution with guaranteed exploration | proved | MentsModel.v weights, policy and sampling; also DB-MENTS, EST, DENTS | log-sum-exp algebra; refutation by a witness node and draw | `C36_distribution` `C36_dbments` `C36_est` `C36_dents` |
| C37 MENTS can always sample its action distribution | partial | MentsModel.v weights, policy and sampling; also DB-MENTS, EST, DENTS | log-sum-exp algebra; refutation by a witness node and draw | `C37_samples_refuted` `C37_samples_partial` |
| C38 Chance node backups are reward plus visit-weighted mean | proved | MentsModel.v chance and decision backups | induction over the children; invariants over runs for the ranges | `C38_soft_value` `C38_dp_value` `C38_entropy` `C38_order_irrelevant` `C38_dp_order_irrelevant` `C38_between` `C38_in_searches` |
| C39 Dynamic-programming backups are max/min backups | proved | MentsModel.v chance and decision backups | induction over the children; invariants over runs for the ranges | `C39_best_child` `C39_order_irrelevant` `C39_dbments_range` `C39_dents_range` `C39_est_range` |
| C40 Outcome weights match how often outcomes were sampled | partial | MentsModel.v in the engine, with the events of the trace | invariant relating the counters of nodes to the events; refuted by a run | `C40_counts` `C40_soft_partial` `C40_dp_partial` `C40_entropy_partial` `C40_soft_mcts` `C40_dp_mcts` `C40_entropy_mcts` `C40_refuted` `C40_dp_refuted` |
| C41 Shifted pseudo Q-values use the mean log prior | partial | MentsModel.v pseudo Q-values | algebra; refuted by witness priors | `C41_mean_refuted` `C41_offset_uses_last_entry` `C41_mean_partial` |
| C42 Temperature decay stays between its bounds and never rises | proved | MentsModel.v decays and entropies | real analysis (concavity of log) | `C42_decay` `C42_closed_forms` `C42_node_temperature` |
| C43 Entropy backups compute the policy entropy | proved | MentsModel.v decays and entropies | real analysis (concavity of log) | `C43_entropy_backup` `C43_entropy_bounds` `C43_entropy_bounds_dropped` |
| C44 TENTS weights are the sparsemax distribution | proved | MentsModel.v TENTS maps, sparse set, weights, spmax | projection on the simplex characterised; invariant of the two maps; stale entries exhibited in a run | `C44_weights` `C44_updates` `C44_in_searches` `C44_backup` |
| C45 TENTS sees current values under a decaying temperature | partial | MentsModel.v TENTS maps, sparse set, weights, spmax | projection on the simplex characterised; invariant of the two maps; stale entries exhibited in a run | `C45_current_values_refuted` `C45_soft_value_refuted` `C45_stored_values_partial` `C45_fixed_temperature_partial` `C45_selection_partial` |
| C46 RENTS and TENTS always find their context entries | proved | MentsModel.v contexts of RENTS and TENTS (AlgoTrail.v) | invariant along each trial | `C46_tents_actions` `C46_tents_backups` `C46_rents_policies` |
| C47 Monte-Carlo evaluation runs exactly the requested rollouts | proved | EvalModel.v: threads, lock, sampled rollouts | invariant over schedules; measure for termination | `C47_all_rollouts` `C47_each_once` `C47_no_deadlock` `C47_terminates` |
| C48 Rollouts respect max_trial_length | partial | EvalModel.v | induction; refutations by evaluation | `C48_refuted` `C48_endless_refuted` `C48_no_actions_partial` |
| C49 Mean and standard deviation are what they claim | partial | EvalModel.v | induction; refutations by evaluation | `C49_mean` `C49_order` `C49_no_returns` `C49_stddev_is_variance` `C49_stddev_refuted` `C49_one_return_refuted` |
| C50 The evaluation policy follows the tree, then acts at random until reset | proved | EvalModel.v | induction; refutations by evaluation | `C50_follows` `C50_stays_outside` `C50_copy` `C50_actions` `C50_node_has_state` `C47_all_rollouts` |
| C51 Log entries appear every trials_delta trials | partial | LoggerModel.v: logger state machine with the pool's calls | invariants over histories; refutations by histories | `C51_entries` `C51_first_run_partial` `C51_later_runs_refuted` `C51_uninitialised_refuted` |
| C52 Logged runtimes accumulate over runs | partial | LoggerModel.v: logger state machine with the pool's calls | invariants over histories; refutations by histories | `C52_within_run` `C52_two_runs_partial` `C52_later_runs_refuted` `C52_timeout_refuted` `C52_overcount_refuted` |
| C53 Algorithm loggers keep their extra columns | partial | LoggerModel.v rows by value | refuted: every stored row is a base row | `C53_sliced` `C53_columns_refuted` `C53_base_partial` |
| C54 Contexts behave as maps | proved | ContextModel.v | algebraic laws, induction over histories | `C54_history` `C54_get_put` `C54_get_put_const` `C54_independent` |
| C55 Equality of states, actions and node ids is an equivalence compatible with hashing | proved | TypesModel.v: class hierarchy with dynamic casts, equals, hash | case analysis | `C55_equals` `C55_action_equals` `C55_equivalence` `C55_action_equivalence` `C55_classes` `C55_action_classes` `C55_ids` `C55_hash` `C55_action_hash` `C55_id_hash` `C55_hash_range` `C55_null_asymmetric` `C55_decides` `C55_id_decides` |
| C56 Roles and terminal values are right at every node | proved | NodeModel.v | case analysis; induction over trees | `C56_opponent` `C56_opponent_uct` `C56_opponent_ments` `C56_every_node` `C56_roles` `C56_alternates` `C56_values` `C56_leaf` `C56_children` |
| C57 Pretty printing shows exactly the requested levels | proved | NodeModel.v | case analysis; induction over trees | `C57_decision_nodes` `C57_chance_nodes` `C57_dots` `C57_layout` |
| C58 Default fully observable environments observe the next state | proved | EnvModel.v: default functions and the template | case analysis; refutations by witness | `C58_fully_observable` `C58_sample_agrees` `C58_partially_observable` |
| C59 Opponent nodes are exact mirrors | proved | UctModel.v, MentsModel.v and the engine on a problem and on the negated problem | simulation: every step commutes with negation (record `mirrored`), then induction over runs | `C59_uct_roles` `C59_roles` `C59_uct_node` `C59_ments_node` `C59_dbments_node` `C59_dents_node` `C59_est_node` `C59_rents_node` `C59_tents_node` `C59_uct_recommends` `C59_ments_recommends` `C59_dbments_recommends` `C59_dents_recommends` `C59_uct_search` `C59_ments_search` `C59_dbments_search` `C59_dents_search` `C59_est_search` `C59_rents_search` `C59_tents_search` |
| C60 Random integers are in range | proved | HelperModel.v over an arbitrary ordered value type | induction over the map; refutations by evaluation | `C60_rand_int_range` `C60_every_value_possible` `C60_empty_range_undefined` |
| C61 Every trial terminates and never gets stuck | proved | EngineModel.v: heap of nodes, any number of threads running trials in any interleaving | potential function per thread; enabledness by case analysis; for backups with several looks the holder of a node's lock can always go on, so threads that wait for each other cannot form a cycle | `C61_trial_bounded` `C61_trial_progress` `C61_algorithm_trials_finish` `C61_looking_trials_finish` `C61_trials_drain` `C61_algorithm_completes` |
| C62 run_trials(n) runs n complete trials on the tree | proved | ProductModel.v: pool and engine synchronised at start and end of trials | simulation of both components, then C01/C02 and C10 | `C62_join_means_tree_idle` `C62_run_trials` `C62_progress` |
| C63 A UCT search never fails in a sane environment | proved | UctModel.v in the engine | safety invariant (values bounded, children complete) over runs; completion by C61 | `C63_uct_never_fails` `C63_uct_completes` |
| C64 Pseudo Q-values order actions as the prior does | partial | MentsModel.v pseudo Q-values | algebra; refuted by witness priors | `C64_prior_order_refuted` `C64_prior_order_partial` |
| C65 A MENTS search never fails with sane settings | proved | MentsModel.v algorithms in the engine | safety invariant over runs per algorithm (FamilyRun.v generic part); refuted for DENTS by a run | `C65_never_fails` `C65_completes` `C65_exploring` |
| C66 Runtime logging keeps its spacing | partial | LoggerModel.v: logger state machine with the pool's calls | invariants over histories; refutations by histories | `C66_spacing_refuted` `C66_runtime_entries_partial` |
| C67 An evaluation never fails in a sane environment | proved | EvalModel.v: threads, lock, sampled rollouts | invariant over schedules; measure for termination | `C67_never_fails` `C67_completes` `C67_returns` `C67_uct_evaluation` `C67_overflow` |
| C68 Recommendations during an evaluation may use the environment context | partial | EvalModel.v | induction; refutations by evaluation | `C68_context_refuted` |
| C69 The environment template preserves transition probabilities | partial | EnvModel.v: default functions and the template | case analysis; refutations by witness | `C69_refuted` `C69_kept_partial` |
| C70 The environment template provides observation distributions | partial | EnvModel.v: default functions and the template | case analysis; refutations by witness | `C70_refuted` |
| C71 Searches with the MENTS relatives never fail with sane settings | partial | MentsModel.v algorithms in the engine | safety invariant over runs per algorithm (FamilyRun.v generic part); refuted for DENTS by a run | `C71_dbments_failures` `C71_dbments_exploring` `C71_dbments_completes` `C71_est_failures` `C71_est_exploring` `C71_est_completes` `C71_dents_failures_partial` `C71_dents_exploring` `C71_dents_completes` `C71_dents_refuted` |
| C72 Average-return estimates of EST and DENTS are averages | proved | MentsModel.v EST and DENTS in the engine | history invariant; bounds by invariant | `C72_dents_means` `C72_est_means` `C72_dents_bounds` `C72_est_bounds` |
| C73 Entropies in a DENTS search are well defined and bounded | partial | MentsModel.v EST and DENTS in the engine | history invariant; bounds by invariant | `C73_entropies_partial` `C73_entropies_refuted` |
| C74 Between trials every value agrees with the values of the children | proved | MentsModel.v algorithms in the engine (AlgoQuiet.v) | invariant: every node nobody is about to back up agrees with its children | `C74_ments` `C74_ments_fixed_temperature` `C74_dbments_soft` `C74_dbments_values` `C74_dents_values` `C74_est_values` `C74_dents_entropies` `C74_tents` `C74_tents_fixed_temperature` |
| C75 Searches with RENTS and TENTS never fail with sane settings | proved | MentsModel.v algorithms in the engine | safety invariant over runs per algorithm (FamilyRun.v generic part); refuted for DENTS by a run | `C75_rents_failures` `C75_rents_exploring` `C75_rents_completes` `C75_tents_failures` `C75_tents_exploring` `C75_tents_completes` |
| C76 RENTS policies and values are relative to the parent's policy | proved | MentsModel.v RENTS | algebra of the normalised weights | `C76_rents_policy` `C76_rents_value` |
| C77 No action starves in a UCT or PUCT search | proved | UctModel.v UCT and PUCT in the engine (ExploreSpec.v) | invariant: an action selected often is only selected again when all others were tried; pigeonhole | `C77_no_action_starves` `C77_root` `C77_uct_term` `C77_puct_term` |
| C78 Dynamic programming values are those of an optimal plan for the sampled tree | proved | MentsModel.v algorithms in the engine; plans over the store (TreeSpec.v) | induction on the remaining depth from the equations of C74; the weights are those of C40 | `C78_dbments` `C78_dents` `C78_est` `C78_unique` `C78_one_player` |
| C79 Soft and sparse values are those of an optimal entropy-regularised plan for the sampled tree | proved | MentsModel.v algorithms in the engine; mixed plans over the store (TreeSpec.v) | the same induction with the variational formulas of the log-sum-exp and the sparse maximum | `C79_ments` `C79_dbments` `C79_tents` `C79_unique` `C79_offset` |
| C80 Recommendations by value are optimal for the sampled tree | proved | the recommendation functions of MentsModel.v at reachable states | first actions of optimal plans are the children that attain the node value; combined with C21 and C78 | `C80_dbments` `C80_dents` `C80_est` |
| C81 Printed values identify what was printed | partial | PrintModel.v: the printing functions as functions to strings; how doubles and pointers print is a parameter | a reader for integers (PrintSpec.v), splitting at commas, induction on the loop | `C81_ints` `C81_states` `C81_states_printable` `C81_ids` `C81_actions_partial` `C81_actions_refuted` `C81_vectors` `C81_int_vectors` `C81_string_vectors_refuted` `C81_maps` `C81_equal_maps_refuted` `C81_table` `C81_table_alive` |
| C82 Searches have no data races | partial | AccessModel.v: LockModel.v with the accesses to shared data as steps of their own; recommendations as sections a user runs at any time | each access is followed by the release of the mutex that guards it (syntactic invariant), and LockProofs.v relates the next release to what a thread holds; schedules for the refutations | `C82_exclusive` `C82_searches` `C82_recommend_partial` `C82_recommend_refuted` `C82_table_refuted` |
| C83 Concurrent searches are serialisable | partial | SerialModel.v: sections as programs with effects, interleaved at single operations, and the same sections run one at a time | forward simulation: a section takes effect at its first look (the locks it holds keep other threads from what it reads and writes); a schedule with a section between two looks for the refutation | `C83_serial` `C83_library_partial` `C83_refuted` |
| C84 Rounding errors of UCT values stay small | proved | RoundModel.v: returns and averages of UCT over any arithmetic, with binary64 (SpecFloat) as one instance; selections and samples are arbitrary functions | each binary64 operation is the exact one followed by a rounding (Flocq's theorems); induction on backups for the error of the running average; generic history lemma over backup arguments (ArgsHist.v) for searches | `C84_same_code` `C84_doubles` `C84_double_values` `C84_rounded_values` |
| C85 Rounding does not push UCT values out of the range of the returns | partial | as C84 | one step avg + (r - avg)/n with n >= 2 rounds into the interval because rounding is monotone and (r - avg)/2 absorbs the rounding of the difference; induction on backups; sums of small integers are exact; a concrete search for the refutation | `C85_range` `C85_integer_rewards` `C85_zero_pseudo_trials_refuted` |
| C86 Without pseudo trials UCT ignores the heuristic function | partial | UctModel.v, EngineModel.v | a concrete one-step search with heuristic value h of the last state has value h + 1; C18 with zero pseudo trials | `C86_heuristic_ignored_refuted` `C86_own_heuristic_ignored_partial` |
| C87 Soft values are computed stably in doubles | proved | LseModel.v over any arithmetic: real numbers or binary64 with arbitrary exp and log of bounded error | the largest argument of exp is 0, so the sum is at least 1/4; errors of quotients, differences, exp, the summation, log and the final product are bounded one after the other and added up; induction on the children for the average | `C87_same_code` `C87_finite` `C87_close` `C87_average` |
| C88 MENTS searches in doubles stay finite and near the exact values of the tree | proved | Ments64Model.v: MENTS over the engine with values in binary64 and arbitrary selections; LseModel.v | invariant of single nodes: values are bounded by the depth below them (C87 for one backup); between trials every node holds the result of a backup from its children's present values, so the error is bounded by induction on the depth with log-sum-exp and means being 1-Lipschitz; exact values are those of optimal mixed plans (MixedProofs.v) | `C88_finite` `C88_close` `C88_choice` |
| C89 Searches approach the values of the environment | proved | WorldSpec.v: the value functions of the environment (solves), explored trees and faithful samples; the algorithms of MentsModel.v at reachable states | between trials every node holds the result of a backup from its children's present values (QuietResults.v, TreeResults.v, MixedResults.v); induction on the number of decisions left with the backup rules being 1-Lipschitz; every edge of the tree was walked (EngineMade.v); existence and uniqueness by backward induction | `C89_values_exist` `C89_soft_values_exist` `C89_sparse_values_exist` `C89_values_unique` `C89_mixed_values_unique` `C89_dbments` `C89_dents` `C89_est` `C89_dbments_certain` `C89_dents_certain` `C89_est_certain` `C89_dbments_recommends` `C89_dents_recommends` `C89_est_recommends` `C89_dbments_recommends_best` `C89_dents_recommends_best` `C89_est_recommends_best` `C89_ments` `C89_dbments_soft` `C89_ments_certain` `C89_dbments_soft_certain` `C89_tents` `C89_tents_certain` |
| C90 No part of the environment is out of reach of a search | proved | ReachSpec.v: routes of the environment, a generator whose draws to come are replaced, runs that continue a state; the algorithms of MentsModel.v | a state reached with one stream of draws is reached with every stream that agrees so far (ReachProofs.v); the policy of a reachable node gives each action a positive share, so that some draw selects it, likewise outcomes; a trial follows a route to its first new node and then ends (ReachFollow.v); induction on routes and steps; visits by counting trials (EngineVisits.v) | `C90_visits` `C90_ments` `C90_ments_whole` `C90_dbments` `C90_dbments_whole` `C90_est` `C90_est_whole` `C90_rents` `C90_rents_whole` `C90_tents` `C90_tents_whole` `C90_dents` `C90_dents_whole` `C90_whole_explored` `C90_dbments_values` `C90_ments_values` `C90_tents_values` |
| C91 UCT and PUCT converge to the values of the environment | proved | ConvSpec.v: the values of an environment under best play, exploration terms that die out, fair sampling of outcomes; the UCT and PUCT nodes of UctModel.v on the engine | every return of a parent is a reward plus a return of a child, up to trials under way (EngineLedger.v, ConvCount.v); so the deviation of a chance node from what its action is worth is that of its children plus a sampling error; an action that is not best is selected only if its term outweighs a fixed gap, hence a vanishing share of the time (ConvProofs.v); so the deviation of a decision node is that of its best children plus a vanishing share; induction on the decisions left (ConvMain.v) | `C91_values_exist` `C91_values_unique` `C91_values_converge` `C91_actions_converge` `C91_rarely_tried` `C91_recommends_best` `C91_root_converges` `C91_root_recommends_best` `C91_certain_is_fair` `C91_root_certain` `C91_uct_term` `C91_puct_term` |
| C92 Dynamic programming values in doubles stay finite and near the exact values of the tree | proved | Dp64Model.v: the dynamic programming members of DB-MENTS, DENTS and EST over the engine with values in binary64 and arbitrary selections; recommendation by them | as C88: values are bounded by the depth below them in every state; between trials every node holds the result of a backup from its children's present values, and exact means and maxima are 1-Lipschitz, so the error grows by one chance node per level (Dp64Close.v); comparisons of doubles in range are those of their real values, so the recommended child is the best by computed value (Dp64Pick.v) | `C92_finite` `C92_close` `C92_recommends` |
| C93 UCT and PUCT converge with probability close to one | proved | OddsSpec.v: shares of sequences of draws, generators made of them, schedulers as functions of the draws so far; the UCT and PUCT nodes of UctModel.v on the engine | a step reads at most one draw, and what happened before does not depend on later ones (OddsStep.v, OddsReads.v); a non-negative quantity of the state that does not grow on average over the next draw exceeds 1/delta at any time for a share of at most delta of the sequences (Ville's inequality by induction on the draws, OddsVille.v); for each chance node and outcome the exponential of the deviation of its frequency, suitably compensated, is such a quantity (OddsAvg.v, OddsFair.v); the union over the nodes, whose number the environment bounds (OddsNodes.v), and over geometric accuracies gives a law of large numbers that is uniform in time (OddsLaw.v); then C91. Trials draw a bounded number of times (OddsDraws.v). Schedulers that complete any number of trials exist (OddsRuns.v) | `C93_shares_mean_something` `C93_sampling_is_fair` `C93_values_converge` `C93_recommends_best` `C93_root_converges` `C93_root_recommends_best` `C93_runs_exist` |
| C94 The search tree cannot outgrow the environment | proved | EngineModel.v as it is; SizeSpec.v: choices, the ends of routes, geometric sums (routes are ReachSpec.v's) | every node is led to by a route (an invariant of the engine), and a route leads to one node, so nodes can be counted by routes; with the table by state and depth (C14); without it distinct routes lead to distinct nodes (C14), so a whole tree has one node for each (SizeProofs.v) | `C94_routes` `C94_choices` `C94_decision_nodes` `C94_chance_nodes` `C94_every_algorithm` `C94_branching` `C94_table` `C94_table_states` `C94_exact` |
| C95 MENTS and its relatives explore everything and converge with probability close to one | proved | MentsModel.v and the other nodes of the family on the engine; OddsBoldSpec.v: settings that keep trying every action; probability as in OddsSpec.v | a visit of a node takes any given action with probability at least q/2 (OddsFamily.v: the draws that select it are an interval of its weight); a supermartingale bounds the probability that an action is left out for long (OddsTry.v, OddsOften.v: Ville's inequality of OddsVille.v); induction on the depth: all nodes are visited often enough (OddsGrow.v, OddsSpread.v); with the uniform law of large numbers of C93 the search is explored and faithful, which is what C89 needs (OddsBoldResults.v) | `C95_ments_explores` `C95_dbments_explores` `C95_est_explores` `C95_rents_explores` `C95_tents_explores` `C95_dents_explores` `C95_dbments_values` `C95_dents_values` `C95_est_values` `C95_dbments_recommends_best` `C95_dents_recommends_best` `C95_est_recommends_best` `C95_ments_values` `C95_dbments_soft_values` `C95_tents_values` `C95_bold_settings_exist` `C95_ments_runs` `C95_dbments_runs` `C95_est_runs` `C95_rents_runs` `C95_tents_runs` `C95_dents_runs` |
| C96 Searches in doubles approximate the values of the environment and recommend nearly best actions | proved | Dp64Model.v and Ments64Model.v (C92, C88) on the engine; WorldSpec.v: the values of the environment (C89) | the exact values of the tree that C92 and C88 compare the doubles with satisfy the recursion that C89 compares with the environment (Dp64World.v, Ments64World.v); the two errors add up | `C96_values` `C96_recommends` `C96_recommends_best` `C96_soft_values` `C96_soft_choice` |
| C97 Sharing nodes through the transposition table keeps recommendations close to best play | partial | MentsModel.v on the engine with use_tt (EngineModel.v:create_child_c); TableSpec.v counts steps in the trace, independently of the counters of nodes | without table: the counters of children are the counted steps plus at most one, so C89 applies (TableFair.v). With table: an environment with two shared end states, one lemma per kind of trial (TableProofs.v), an invariant for the values (TableResults.v) and induction over rounds of eight trials | `C97_without_table` `C97_table` `C97_table_refuted` |
| C98 Where actions have certain outcomes, values become exact and stay exact, also with the transposition table | proved | MentsModel.v on the engine with or without use_tt; SureSpec.v defines a round by the visits of chance nodes, WorldSpec.v the values of the environment | induction over the rounds: after the k-th the values of all nodes at most k steps above the end are exact (SureProofs.v), kept by every step of the engine; SureResults.v instantiates it for dynamic programming and soft values | `C98_dbments` `C98_dents` `C98_est` `C98_dbments_recommends_best` `C98_dents_recommends_best` `C98_est_recommends_best` `C98_ments` |
| C99 The counters of nodes cannot overflow before 2^31 trials | proved | The engine and algorithm models count in Z; fits in BoundSpec.v is the range of int. | Invariant on the trace: each trial adds at most one visit per depth (BoundProofs.v); backups of a node are bounded by its visits, counters grow by at most one per backup or leaf visit (BoundResults.v, via the history rules). | `C99_levels` `C99_visits` `C99_visits_fit` `C99_sharp` `C99_uct` `C99_ments` `C99_rents` `C99_tents` `C99_dbments` `C99_dents` `C99_est` |
| C100 Searches can be reproduced from the seed unless trials overlap | proved | The steps of AlgoModel.v for any algorithm; a schedule is a list of labels, one_at_a_time in ReproSpec.v says that trials do not overlap. | With one worker at most one label is possible in a state, so runs are prefixes of each other; workers that take turns are simulated by a single one (solo in ReproProofs.v). A concrete pair of schedules of MENTS refutes it for overlapping trials. | `C100_one_worker` `C100_one_history` `C100_turns` `C100_reproducible` `C100_overlap_refuted` |
| C101 The unit of rewards does not matter without priors | proved | UctModel.v, MentsModel.v and the engine on a problem and on the problem with another unit of reward (scl_conf, scl_uconf, scl_mconf in ScaleSpec.v) | simulation as for C59: every step commutes with the scaling (record `scaled` in ScaleProofs.v, ScaleAlgos.v, ScaleUct.v), then induction over runs; for UCT only on reachable states, whose values are in range. A node with a prior refutes it. | `C101_uct_search` `C101_uct_recommends` `C101_ments_node` `C101_ments_recommends` `C101_ments_search` `C101_dbments_node` `C101_dbments_recommends` `C101_dbments_search` `C101_dents_node` `C101_dents_recommends` `C101_dents_search` `C101_est_node` `C101_est_search` `C101_rents_node` `C101_rents_search` `C101_tents_node` `C101_tents_search` `C101_prior_refuted` |
| C102 Nodes and managers live exactly as long as somebody needs them | proved | RcModel.v: objects with use counts, children maps, manager pointers and the weak table; shared_ptr's outside as a list; release with its nested destructor calls (a bounded stack, a double release is a crash) | invariant: the use count of every object is the number of pointers outside plus those in existing objects (put_strong, release_ok by induction on the stack); pointers go from a level to the next or to a manager, so counts reach 0 exactly for what nobody needs (RcProofs.v) | `C102_exact` `C102_no_leak` `C102_subtree_kept` `C102_no_crash` `C102_runs` `C102_use_count` |
| C103 Average returns of DENTS and EST computed in doubles are accurate and stay in range | proved | Emp64Model.v: a description of the algorithms whose nodes keep the members of EmpNode (whatever else they do), over any arithmetic; returns added up in binary64 as in thts.cpp; recommend_action_best_emp_value_impl in binary64. | The members of a node are a fold of the update over the rewards of its backups (ArgsHist.v); the error and range lemmas of C84 and C85 with one pseudo trial; comparison of doubles is comparison of the numbers they stand for (Dp64Pick.v). | `C103_same_code` `C103_values` `C103_range` `C103_recommends` `C103_integer_rewards` |
| C104 Searches with default arguments never fail | proved | DefaultModel.v: the argument structures of all managers with their default values, and the manager constructors that copy them into the settings a search reads. | The defaults meet the premises of C63, C65, C71 and C75: with epsilon 0.5 the exploration share keeps the truncated policies positive for up to 10^14 actions and 2^31-1 visits, as ln(2^31+1) is at most 32. The recommendations are those of C21, whose bounds on values hold for rewards up to 2^900 and 2^31-1 steps. | `C104_uct_defaults` `C104_entropy_defaults` `C104_base_defaults` `C104_uct_recommends` `C104_ments_recommends` `C104_dp_recommends` |
| C105 Values of RENTS stay within bounds, so its recommendations succeed | proved | The model of RENTS in MentsModel.v; RentsSpec.v: the bound. | Invariant of all nodes (AlgoNodes.v) as for MENTS (C35) with max(N, 10^16) in place of N: the sum of relative weights is between 10^-16 and N, or was replaced by one. The recommendation is that of C21, whose premise on values follows. | `C105_rents_values` `C105_rents_recommends` `C105_rents_defaults` |
| C106 Values of TENTS stay within bounds, so its recommendations succeed | proved | The model of TENTS in MentsModel.v; TboundSpec.v: the bound. | Invariant of all nodes (AlgoNodes.v): the stored values times the current temperature are within the bound, as temperatures never grow with visits (C42). The backup computes the sparse maximum (C44), a mean plus at most one half. | `C106_tents_values` `C106_tents_recommends` `C106_tents_defaults` |

## 6. Findings

Defects of the code at this commit that the theorems establish (the theorem in brackets):

1. `set_new_env` only checks whether trials remain to be started, not whether some are in progress: it can replace manager and root under running workers (C06_refuted, C06_throws_iff).
2. A blocking `run_trials(n, t)` can hang after its time limit: nobody wakes the caller if the limit passes while workers sleep (C04_refuted, C04_refuted_between_checks). With zero threads
   it hangs always (C03_zero_threads_refuted). The pool uses `system_clock`, so setting the clock back restarts trials after join (C02_clock_set_back_refuted).
3. `get_max_key_break_ties_randomly` takes a remainder by zero if all values are -infinity, and NaN counts as a tie (C25_*).
4. `sample_from_distribution` throws on ten entries of 0.1 in binary64 (C26_binary64_refuted), for `normalised=false` and sums below one (C27_refuted), and on trailing zero entries (C28_refuted).
5. `CategoricalDistribution::update` with a new key or with a map of another size is undefined behaviour (C32_new_key_refuted, C33_*_refuted).
6. The transposition table: several mutexes do not exclude each other on the shared map, zero mutexes index out of bounds (C15_*_refuted); expired weak pointers make a reused manager throw (C16_reuse_refuted);
   MENTS-like algorithms can deadlock with it (C17_table_refuted). Backups weigh a shared child by its visits from all parents, so that values and recommendations can stay wrong forever (C97_table_refuted).
7. MENTS drops probabilities below 1e-16 without renormalising, so that a draw near one throws (C37_samples_refuted). The shift of pseudo Q-values divides by a counter that is never incremented (C41_mean_refuted),
   `psuedo_q_value_offset` is ignored unless shifting; logs of prior weights are clamped to ±32 at 1e±32, which is not monotone (C64_prior_order_refuted).
8. In mcts_mode the counts used as weights of outcomes differ from the number of samples (C40_refuted, C40_dp_refuted).
9. DENTS with epsilon 0 computes 0/0 in its constructor and throws in the second trial (C71_dents_refuted, C73_entropies_refuted).
10. TENTS with a temperature decay ranks actions by stale values and its soft value can fall below the best Q value (C45_*_refuted). RENTS normalises by the maximum over all actions, also those absent from the parent's policy; if the
    remaining weights are below 1e-16 it falls back to uniform weights, and the value becomes the largest Q (C76_rents_value).
11. `max_trial_length` of the Monte-Carlo evaluation has no effect (C48_refuted); `get_stddev_return` returns the variance, and NaN for one return (C49_*_refuted); the context given to recommendations is a destroyed temporary (C68_context_refuted).
12. The logger never initialises its counters, logs at other positions in later runs, loses or double counts prior runtimes, slices the rows of algorithm loggers (C51-C53, C66 `_refuted`).
13. `recommend_action` of UCT and MENTS, and every recommendation by visits, reads the children without locking them: asking for a recommendation while a search runs is a data race,
    also for a caller who holds the node's lock (C82_recommend_refuted).
14. DB-MENTS and DENTS release the children's locks in the middle of a backup, so that the soft value, the dp value and the entropy of a node can stem from different states of its children until its next backup (C83_refuted). All theorems about searches of these algorithms (such as C71 and C74) are about a model with this behaviour.
15. The environment template merges probabilities of equal states wrongly and dereferences a null shared_ptr (C69_refuted, C70_refuted).
16. `UctManager`'s documentation says that zero pseudo trials make UCT ignore the heuristic. It is still added to every return (C86_heuristic_ignored_refuted), and it is the start of the running average,
   where it cancels only in exact arithmetic: a heuristic value of 2^60 makes the value after a first return of 1 equal to 0 (C85_zero_pseudo_trials_refuted).

Observations without a property: a MENTS node created in mcts_mode that is not a leaf has its heuristic value replaced at the first backup; with the
table, in mcts_mode a shared but old child also ends the trial.

## 7. Tests with wrong programs

`seeded/mutations_*.json` are edits of the model files (file, old text, new text, the claim they break), `seeded/harness.py` applies each in a scratch clone, rebuilds and records
which theorems fail; `seeded/LOG.jsonl` holds one line per attempt, including the theorems that were tightened as a consequence.
That a theorem "failed" means that its proof no longer goes through for the edited model. The harness does not decide whether the statement itself has become false, so a
long list of failures is no measure of strength. The result that matters is an edit after which a theorem whose English claim is now false still proves: those were tightened.
