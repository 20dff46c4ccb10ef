#!/usr/bin/env python3
"""Writes /verif/properties.jsonl (one JSON object per line)."""
import json, os
P = []
def p(i, title, statement, quantifier, why, anchors):
    P.append(dict(id=i, title=title, statement=statement, quantifier=quantifier, why_tests_cant=why, anchors=anchors))

SCHED = "Tests see a handful of interleavings; the claim is about every interleaving of the workers, the caller, the clock and spurious wakeups."
INP = "The input space is unbounded; a test can only try a few values."

p("C01","A run never exceeds its trial budget and, unless time runs out, uses all of it",
  "After run_trials(n, t) the pool starts at most max(n,0) trials before the next run_trials call, and when join() (or the blocking run_trials) returns while the time limit t has not passed, exactly n trials have been started and all of them have finished.",
  "every number of worker threads, every n, every sequence of API calls by the client thread and every schedule of workers, client, clock ticks and spurious wakeups",
  SCHED, ["src/thts.cpp: ThtsPool::worker_fn, run_trials, join, work_left"])
p("C02","When join returns no trial is in progress",
  "At the moment join() or a blocking run_trials() returns to the caller, no worker thread is executing a trial, and none starts one until the next run_trials call.",
  "every number of workers, every schedule, every history of API calls, with or without a time limit",
  SCHED, ["src/thts.cpp: ThtsPool::join, worker_fn"])
p("C03","A blocking run without time-out always returns",
  "If the time limit is not reached, trials terminate and the pool has at least one worker, then a blocking run_trials(n) returns: no schedule leaves the caller or the workers waiting for ever, and the number of steps is bounded.",
  "every schedule without spurious wakeups, every n and every positive number of workers",
  "A lost wakeup shows up only under rare interleavings; absence of hangs is a statement about all of them.",
  ["src/thts.cpp: ThtsPool::worker_fn, join, run_trials"])
p("C04","A blocking run with a time limit always returns",
  "A blocking run_trials(n, t) returns once t seconds have passed and the trials in progress have finished.",
  "every schedule and every clock behaviour",
  "The failing schedules need the clock to cross the limit between two reads; a test cannot force that.",
  ["src/thts.cpp: ThtsPool::worker_fn (two calls of work_left), join, work_left"])
p("C05","Destroying a pool stops every worker and starts nothing new",
  "Once the destructor has been entered (its critical section done) no worker starts another trial, every worker exits after at most finishing the trial it is in, and the destructor returns, whether or not trials remain.",
  "every schedule and every state the pool can be in when the destructor is called",
  SCHED, ["src/thts.cpp: ThtsPool::~ThtsPool, worker_fn"])
p("C06","set_new_env refuses to change the tree while trials are running",
  "set_new_env(...) throws whenever some worker is executing a trial; it changes manager, root and logger only when the pool is idle.",
  "every schedule and every state in which set_new_env can be called",
  SCHED, ["src/thts.cpp: ThtsPool::set_new_env, work_left"])
p("C07","Pool bookkeeping is exact",
  "At every instant: trials remaining + trials started since the last run_trials = max_trials of that call, at most num_threads trials are in progress, and the internal count of working threads equals the number of workers that are starting up, running or finishing a trial.",
  "every reachable state of the pool under every schedule",
  SCHED, ["src/thts.cpp: ThtsPool::worker_fn, run_trials, ThtsPool ctor"])
p("C08","A trial walks a root-to-leaf path and stops where it should",
  "One trial visits an alternating chain root, chance, decision, ..., each the child of the previous for the selected action / sampled observation; the chain ends at a sink state, at max_depth, or (mcts_mode) right after a chance node gained a child; it never selects an action at a sink state or at max_depth; there is one reward per step plus the heuristic value of the last node.",
  "every environment, every node behaviour (selection policy, observation sampler), every max_depth, every tree built so far and every interleaving with other trials",
  INP, ["src/thts.cpp: run_selection_phase, should_continue_selection_phase", "src/thts_decision_node.cpp: is_leaf"])
p("C09","Backups run leaf to root with exactly the right rewards",
  "For trajectory s0,a0,r0,...,sn,an,rn,hv every visited chance node (si,ai) and then its decision node si is backed up exactly once, in order i=n..0, with rewards_before=[r0..r(i-1)], rewards_after=[hv,rn,...,ri], cumulative return after = hv+rn+...+ri and cumulative return = sum of all rewards and hv.",
  "every trajectory of every length and every reward sequence",
  INP, ["src/thts.cpp: run_backup_phase"])
p("C10","Visit and backup counts balance once the search is idle",
  "When no trial is in progress: the root has been visited once per trial; each chance node has been visited exactly as often as it has been backed up and as its child decision nodes were entered from it; each decision node has been visited as often as it was backed up plus the number of trials that ended there.",
  "every number of trials, every interleaving of concurrent trials, every environment and selection policy",
  SCHED, ["src/thts.cpp: run_selection_phase, run_backup_phase", "src/thts_decision_node.cpp: visit_itfc", "src/thts_chance_node.cpp: visit_itfc"])
p("C11","mcts_mode adds at most one decision node per trial",
  "In mcts_mode a single trial creates at most one decision node and at most one chance node edge per step; after k trials the tree has at most k+1 decision nodes. Without mcts_mode every trial runs on until a sink state or max_depth.",
  "every environment, tree, trial and schedule",
  SCHED, ["src/thts.cpp: should_continue_selection_phase, run_selection_phase", "include/thts_manager.h: mcts_mode"])
p("C12","The tree is well formed",
  "Every child of a decision node has that node's state, depth and timestep and the edge's action; every child of a chance node has depth and timestep one larger and the observed state; no decision node is deeper than max_depth; every node hanging in the tree is reachable from the root by a chain of that shape.",
  "every reachable tree after any number of concurrent trials",
  INP, ["src/thts_decision_node.cpp: create_child_node_itfc", "src/thts_chance_node.cpp: create_child_node_itfc", "src/algorithms/uct/uct_chance_node.cpp: create_child_node_helper"])
p("C13","Children are never lost or replaced",
  "Once a node has a child for an action/observation, get_child for that key returns the same node for ever; create_child on an existing key returns that node and changes nothing; num_children counts exactly the distinct keys.",
  "every sequence of create/get/has operations and every history of trials",
  "Needs all histories.", ["src/thts_decision_node.cpp: create_child_node_itfc, has_child_node_itfc, get_child_node_itfc", "src/thts_chance_node.cpp: create_child_node_itfc"])
p("C14","The transposition table shares exactly the right nodes",
  "With the transposition table on, two chance nodes that reach equal observations at equal timesteps hold the same decision node, and different (timestep, observation) pairs never share a node; without it, no decision node has two parents.",
  "every tree reachable by any interleaving of trials (one table mutex)",
  SCHED, ["src/thts_chance_node.cpp: create_child_node_itfc", "include/thts_manager.h: dmap"])
p("C15","Several table mutexes still protect the table",
  "With any number of transposition-table mutexes, two threads are never inside operations on the shared table at the same time.",
  "every hash function, number of mutexes and pair of node ids",
  "A data race is not observable in a deterministic test.", ["src/thts_chance_node.cpp: create_child_node_itfc lines 111-128", "include/thts_manager.h: dmap_mutexes, num_transposition_table_mutexes"])
p("C16","A manager with a transposition table can be reused",
  "Creating a child through a manager whose transposition table was filled by an earlier, now destroyed, tree returns a usable node.",
  "every history of trees built with one manager",
  "Depends on histories across object lifetimes.", ["src/thts_chance_node.cpp: create_child_node_itfc line 121", "include/thts_types.h: DNodeTable (weak_ptr)"])
p("C17","Node locking cannot deadlock",
  "Concurrent trials, which lock a node and then its children, never reach a state where all of them wait for locks held by each other.",
  "every number of threads, every tree shape, every schedule; with and without transposition table",
  "A deadlock needs a precise interleaving.", ["src/thts_decision_node.cpp: lock_all_children", "src/thts_chance_node.cpp: lock_all_children", "src/thts.cpp: run_selection_phase, run_backup_phase"])
p("C18","UCT node values are exact averages",
  "The value of a UCT node equals the mean of the returns-after-node of all trials backed up through it, with the heuristic counted heuristic_psuedo_trials times; in particular it lies between the smallest and largest of them and does not depend on the order of backups.",
  "every sequence of returns, heuristic value and pseudo-trial count (real arithmetic)",
  INP, ["src/algorithms/uct/uct_decision_node.cpp: backup_average_return, ctor", "src/algorithms/uct/uct_chance_node.cpp: backup_average_return"])
p("C19","UCT tries every action before repeating one",
  "Without a prior and without epsilon exploration, while some valid action has not been tried at a node, select_action returns an untried one and creates its child; so the first |A| selections at a node are pairwise different.",
  "every action set, every random choice, every history of selections",
  INP, ["src/algorithms/uct/uct_decision_node.cpp: select_action_ucb"])
p("C20","UCB selection is the argmax for the player to move",
  "Once every action has been tried (or with a prior) select_action returns a valid action maximising coeff*avg + prior*bias*ucb, where coeff is -1 exactly at opponent nodes; every maximiser can be returned and nothing else.",
  "every tree state, bias, prior, visit counts and random draw",
  INP, ["src/algorithms/uct/uct_decision_node.cpp: fill_ucb_values, select_action_ucb, compute_ucb_term", "src/algorithms/uct/puct_decision_node.cpp: compute_ucb_term"])
p("C21","Recommendations are valid and optimal for the chosen criterion",
  "recommend_action always returns one of the valid actions of the state (given at least one); if some child exists it is a child with maximal visit count / maximal value (minimal value for the opponent), honouring the visit threshold where there is one.",
  "every algorithm's node state and every random draw",
  INP, ["src/algorithms/uct/uct_decision_node.cpp: recommend_action*", "src/algorithms/ments/ments_decision_node.cpp: recommend_action*", "src/algorithms/common/dp_decision_node.cpp", "src/algorithms/common/emp_node.cpp"])
p("C22","The automatic bias makes UCT indifferent to reward scale",
  "With the automatic bias the bias is at least 0.001 and at least every |child value|; multiplying all returns by c>0 (with the bias above its floor before and after) does not change the set of actions UCB may select.",
  "every node state and every c>0",
  INP, ["src/algorithms/uct/uct_decision_node.cpp: fill_ucb_values"])
p("C23","Exploration bonuses behave like bonuses",
  "The UCT and PUCT exploration terms are non-negative, do not decrease when the parent is visited more and do not increase when the child is visited more, and the degenerate counts 0 are treated as 1.",
  "all visit counts",
  INP, ["src/algorithms/uct/uct_decision_node.cpp: compute_ucb_term", "src/algorithms/uct/puct_decision_node.cpp: compute_ucb_term"])
p("C24","Max-key helper returns a maximal key and is fair between ties",
  "For a non-empty map of comparable values (no NaN, not all -infinity) get_max_key_break_ties_randomly returns a key whose value is maximal, consults the random generator only if there are ties, and each tied key is returned for exactly one value of the random index.",
  "every map, every iteration order of it and every random draw",
  INP, ["src/helper_templates.cc: get_max_key_break_ties_randomly"])
p("C25","Max-key helper is total",
  "get_max_key_break_ties_randomly returns a key of the map for every non-empty map of doubles.",
  "every non-empty map of doubles including infinities and NaN",
  "Edge cases of IEEE values are easily missed.", ["src/helper_templates.cc: get_max_key_break_ties_randomly"])
p("C26","Sampling a normalised distribution is exact",
  "For a map of positive weights summing to one sample_from_distribution never throws and returns key k exactly for the random numbers in an interval of length weight(k); the intervals partition [0,1).",
  "every such distribution, every iteration order and every random number in [0,1) (real arithmetic)",
  INP, ["src/helper_templates.cc: sample_from_distribution"])
p("C27","Sampling with normalised=false accepts any positive weights",
  "With normalised=false sample_from_distribution never throws for positive weights and returns k with probability weight(k)/sum.",
  "every map of positive weights",
  INP, ["src/helper_templates.cc: sample_from_distribution"])
p("C28","Zero-probability outcomes are tolerated and never sampled",
  "Adding entries of weight zero to a distribution neither makes sampling throw nor lets such an entry be returned.",
  "every distribution, every position of the zero entries",
  INP, ["src/helper_templates.cc: sample_from_distribution"])
p("C29","Alias tables represent the weights exactly",
  "After construction or reconstruction the alias table of a CategoricalDistribution with non-negative weights of positive sum gives each key k exactly probability weight(k)/sum: the thresholds of the entries owning k plus the complements of the entries donating to k add up to n*weight(k)/sum.",
  "every finite map of non-negative weights (real arithmetic)",
  INP, ["src/distributions/categorical_distribution.cc: construct_alias_table, reconstruct_alias_table"])
p("C30","Alias construction terminates within bounds",
  "reconstruct_alias_table performs at most n pairings and only uses indices inside the table; every threshold it leaves is in [0,1].",
  "every table",
  INP, ["src/distributions/categorical_distribution.cc: reconstruct_alias_table"])
p("C31","Sampling a categorical distribution returns keys of positive weight only",
  "sample() returns a key of the current map, and (alias method, table up to date) only keys with positive weight.",
  "every distribution and random draw",
  INP, ["src/distributions/categorical_distribution.cc: sample"])
p("C32","Updating single weights is reflected within the stated delay",
  "After update(key,w) on existing keys the table used for sampling reflects all weights as of the last multiple of reconstruct_alias_table_freq updates; with frequency 1 it is always exact. update with a new key keeps sampling well defined.",
  "every sequence of updates",
  "Needs all histories.", ["src/distributions/categorical_distribution.cc: update(T,double)"])
p("C33","Replacing the whole distribution works for any new size",
  "update(new_distr) leaves the object equivalent to one freshly built from new_distr, whatever the sizes.",
  "every pair of old and new maps",
  INP, ["src/distributions/categorical_distribution.cc: update(shared_ptr)"])
p("C34","Uniform and mixture distributions sample what they say",
  "DiscreteUniform returns every key for the same number of indices and only its keys; a mixture picks component i with probability w_i and then a value of that component.",
  "every key list, mixture and draw",
  INP, ["src/distributions/discrete_uniform_distribution.cc", "src/distributions/mixed_distribution.cc"])
p("C35","MENTS soft values are log-sum-exp values and lie in the right band",
  "After a backup the soft value is temp*log(sum exp(Q/temp)) (negated dual for the opponent), so max Q <= V <= max Q + temp*log|A|, independent of the normalisation shift, and never overflows in the intermediate exponentials (all weights in (0,1]).",
  "every action set, Q values, temperature>0, both players (real arithmetic)",
  INP, ["src/algorithms/ments/ments_decision_node.cpp: compute_action_weights, backup_soft"])
p("C36","MENTS action probabilities form a distribution with guaranteed exploration",
  "Before tiny entries are dropped, the action distribution is non-negative, sums to one, gives every action at least lambda/|A| and prefers actions with larger Q.",
  "every node state with lambda in [0,1] and, with prior mixing, normalised prior and mixing weight in [0,1]",
  INP, ["src/algorithms/ments/ments_decision_node.cpp: compute_action_distribution"])
p("C37","MENTS can always sample its action distribution",
  "select_action never throws because of its own action distribution.",
  "every node state and random draw",
  INP, ["src/algorithms/ments/ments_decision_node.cpp: compute_action_distribution lines 213-230, select_action_ments", "src/helper_templates.cc: sample_from_distribution"])
p("C38","Chance node backups are reward plus visit-weighted mean",
  "The running-average loops of the chance node backups compute R(s,a) + sum n_i V_i / sum n_i over children with n_i>0 (R alone if none), independent of iteration order, and stay between the extreme child values.",
  "every set of children, counts and values (real arithmetic)",
  INP, ["src/algorithms/ments/ments_chance_node.cpp: backup_soft", "src/algorithms/common/dp_chance_node.cpp", "src/algorithms/common/ent_chance_node.cpp"])
p("C39","Dynamic-programming backups are max/min backups",
  "backup_dp sets a decision node's value to the max (min for the opponent) of its backed-up children, independent of iteration order; repeated along a tree this never leaves the range of leaf values plus rewards.",
  "every child set, both players",
  INP, ["src/algorithms/common/dp_decision_node.cpp: backup_dp_impl"])
p("C40","Outcome weights match how often outcomes were sampled",
  "The weight of a child decision node in a DP / soft / entropy chance backup equals the number of trials that sampled that outcome.",
  "every history of trials through the chance node",
  "Needs all histories.", ["include/algorithms/common/dp_decision_node.h: DPDNode", "src/algorithms/common/dp_decision_node.cpp: DPDNode", "src/algorithms/ments/ments_decision_node.cpp: visit", "src/algorithms/ments/dents/dents_decision_node.cpp"])
p("C41","Shifted pseudo Q-values use the mean log prior",
  "With shift_pseudo_q_values the offset is psuedo_q_value_offset minus the mean of the (clamped) log prior weights.",
  "every prior",
  INP, ["src/algorithms/ments/ments_decision_node.cpp: ctor lines 45-60"])
p("C42","Temperature decay stays between its bounds and never rises",
  "compute_decayed_temp returns at least min_temp, at most max(init,min), equals init at zero visits and does not increase with visits, for each of the three decay functions.",
  "all visit counts, scales >= 0 and temperatures",
  INP, ["src/algorithms/common/decaying_temp.cpp"])
p("C43","Entropy backups compute the policy entropy",
  "The local entropy is -sum p log p, lies between 0 and log|A| for a probability distribution, and the subtree entropy is +/- local entropy plus the policy-weighted child entropies.",
  "every policy and child set, both players",
  INP, ["src/algorithms/common/ent_decision_node.cpp", "src/algorithms/common/ent_chance_node.cpp"])
p("C44","TENTS weights are the sparsemax distribution",
  "When the sorted map agrees with the current Q values, the TENTS weights are non-negative, sum to one and equal the projection of Q/temp on the simplex; the soft value equals the spmax formula; the two maps always hold the same action/value pairs after any sequence of updates.",
  "every action set and Q values, every update history",
  INP, ["src/algorithms/ments/tents/tents_decision_node.cpp: update_maps, get_sparse_action_set, spmax, compute_action_weights"])
p("C45","TENTS sees current values under a decaying temperature",
  "The value used to rank every action is its current Q/temp.",
  "every history with a temperature decay function",
  "Needs all histories.", ["src/algorithms/ments/tents/tents_decision_node.cpp: backup_update_map"])
p("C46","RENTS and TENTS always find their context entries",
  "In every trial started at a depth-0 root, the parent distribution (RENTS) and selected action (TENTS) a node looks up were stored earlier in the same trial by the right node.",
  "every trial of every length",
  INP, ["src/algorithms/ments/rents/rents_decision_node.cpp", "src/algorithms/ments/tents/tents_decision_node.cpp", "src/thts_env_context.cpp"])
p("C47","Monte-Carlo evaluation runs exactly the requested rollouts",
  "When run_rollouts(n,k) with k>=1 returns it has appended exactly max(n,0) returns, each the sum of the rewards of a rollout of the policy in the environment; every index is done once, the threads cannot deadlock, and the call ends if rollouts are bounded.",
  "every n, every k>=1, every schedule",
  SCHED, ["src/mc_eval.cpp: run_rollouts, thread_run_rollouts, run_rollout"])
p("C48","Rollouts respect max_trial_length",
  "A rollout takes at most max_trial_length actions.",
  "every environment and policy",
  "A non-terminating loop cannot be observed by a test.", ["src/mc_eval.cpp: run_rollout line 93"])
p("C49","Mean and standard deviation are what they claim",
  "get_mean_return is the arithmetic mean of the stored returns; get_stddev_return is their sample standard deviation.",
  "every non-empty list of returns",
  INP, ["src/mc_eval.cpp: get_mean_return, get_stddev_return"])
p("C50","The evaluation policy follows the tree, then acts at random until reset",
  "After any sequence of steps since reset the policy's current node is the tree node reached by those steps if all of them exist in the tree, and otherwise none, for the rest of the rollout; actions come from that node's recommendation or else uniformly from the valid actions; copying a policy resets the copy.",
  "every tree and every sequence of steps",
  INP, ["src/mc_eval.cpp: EvalPolicy"])
p("C51","Log entries appear every trials_delta trials",
  "With trials_delta=d and no runtime delta, a run of n trials after reset appends exactly floor(n/d) entries, one after each d-th completed trial, also in later runs with the same logger.",
  "every d>=1, every number of runs and trials",
  "Needs all histories.", ["src/thts_logger.cpp: should_log, trial_completed, reset_start_time", "src/thts.cpp: try_log, run_trials"])
p("C52","Logged runtimes accumulate over runs",
  "After each completed run_trials the logger's prior runtime includes that run, so logged runtimes are non-decreasing across runs.",
  "every sequence of runs, with and without time-outs",
  "Needs all histories.", ["src/thts_logger.cpp: update_prior_runtime, get_current_total_runtime", "src/thts.cpp: try_log"])
p("C53","Algorithm loggers keep their extra columns",
  "Entries written by the UCT/MENTS/DB-MENTS loggers contain the algorithm-specific columns they logged.",
  "every sequence of log calls",
  "Object slicing is silent.", ["include/thts_logger.h: entries", "src/algorithms/uct/uct_logger.cpp", "src/algorithms/ments/ments_logger.cpp"])
p("C54","Contexts behave as maps",
  "ThtsEnvContext: get after put returns the value put, other keys are unaffected, erase removes exactly the key, reading a missing key throws, and the const and non-const stores are independent.",
  "every sequence of operations",
  "Needs all histories.", ["src/thts_env_context.cpp"])
p("C55","Equality of states, actions and node ids is an equivalence compatible with hashing",
  "equals is reflexive, symmetric and transitive across the provided state/action types, values of different types are unequal, equal values hash equally, and (timestep, observation) ids are equal iff both components are.",
  "all values of the provided types",
  INP, ["src/thts_types.cpp: equals_itfc, hash, std::equal_to, std::hash<DNodeIdTuple>", "src/helper_templates.cc: hash_combine"])
p("C56","Roles and terminal values are right at every node",
  "is_opponent alternates along every path of a two-player game starting with the player at even timesteps and is never true otherwise; sink states have heuristic value zero whatever the heuristic; is_leaf holds exactly at sinks and at or below max_depth.",
  "every node and manager setting",
  INP, ["src/thts_decision_node.cpp: ctor, is_opponent, is_leaf, is_sink", "src/thts_chance_node.cpp: is_opponent"])
p("C57","Pretty printing shows exactly the requested levels",
  "get_pretty_print_string(d) prints every node of depth at most d below the node (d decision levels), marks cut-off non-leaf nodes with ... and terminates.",
  "every finite tree and every d>=0",
  INP, ["src/thts_decision_node.cpp: get_pretty_print_string_helper", "src/thts_chance_node.cpp: get_pretty_print_string_helper"])
p("C58","Default fully observable environments observe the next state",
  "For a fully observable environment the default observation distribution is the next state with probability one and sampling returns it; for others the defaults throw.",
  "every environment and next state",
  INP, ["src/thts_env.cpp"])
p("C59","Opponent nodes are exact mirrors",
  "At an opponent node every algorithm behaves as the player would on negated values: selection sets, recommendations and backed-up values are those of the negated problem, negated.",
  "every node state",
  INP, ["src/thts_decision_node.cpp: is_opponent", "src/thts_chance_node.cpp: is_opponent", "src/algorithms/uct/uct_decision_node.cpp: opp_coeff", "src/algorithms/ments/ments_decision_node.cpp: is_opponent", "src/algorithms/common/dp_decision_node.cpp: is_opponent", "src/algorithms/common/emp_node.cpp: opp_coeff", "src/algorithms/common/ent_decision_node.cpp: is_opponent"])
p("C60","Random integers are in range",
  "get_rand_int(a,b) lies in [a,b) for a<b and every value is possible; get_rand_int on an empty range is undefined.",
  "all a<b and generator outputs",
  INP, ["include/thts_manager.h: RandManager::get_rand_int"])
p("C61","Every trial terminates and never gets stuck",
  "With max_depth D a trial makes at most 4*D+3 observable actions (start, node visits, node backups, end), and at every moment a trial in progress has a next action, provided that every non-terminal state has a valid action and every valid action an outcome.",
  "every environment satisfying the proviso, every tree, every schedule of concurrent trials",
  SCHED, ["src/thts.cpp: run_thts_trial, run_selection_phase, run_backup_phase"])
p("C62","run_trials(n) runs n complete trials on the tree",
  "When the first blocking run_trials(n) of a pool returns before its time limit, exactly max(n,0) trials have been started and completed on the tree, no trial is in progress, the root's visit count is its initial value plus max(n,0), the tree is well formed and in mcts_mode has at most max(n,0)+1 decision nodes; while the call waits some thread can always make a step.",
  "every number of worker threads >= 1, every n, every environment, every interleaving of the pool protocol with the trials",
  SCHED, ["src/thts.cpp: run_trials, worker_fn, run_thts_trial, join"])
p("C63","A UCT search never fails in a sane environment",
  "If non-terminal states have actions, outcome distributions are positive and sum to one, returns fit in a double and priors (if any) exist and are non-negative, then no trial of a UCT/PUCT search throws or runs into undefined behaviour, and any number of trials can be completed.",
  "every such environment and setting, every number of threads, interleaving and random stream",
  SCHED, ["src/algorithms/uct/uct_decision_node.cpp", "src/algorithms/uct/uct_chance_node.cpp", "src/algorithms/uct/puct_decision_node.cpp"])
p("C64","Pseudo Q-values order actions as the prior does",
  "For unexpanded actions a larger prior weight never gives a smaller pseudo Q-value (and the same weight the same value).",
  "every pair of prior weights",
  INP, ["src/algorithms/ments/ments_decision_node.cpp: get_soft_q_value"])
p("C65","A MENTS search never fails with sane settings",
  "With a sane environment and settings no trial of a MENTS search throws or runs into undefined behaviour, and any number of trials can be completed, if either Q values stay close together relative to the temperature or the search explores.",
  "every such environment and setting, every number of threads, interleaving and random stream",
  SCHED, ["src/algorithms/ments/ments_decision_node.cpp", "src/algorithms/ments/ments_chance_node.cpp"])
p("C66","Runtime logging keeps its spacing",
  "With runtime_delta=d set (and trials logging off) entries of a run are at least d apart in runtime, so the log has at most elapsed/d entries besides the origin.",
  "every d, every sequence of trial durations",
  "Needs all histories.", ["src/thts_logger.cpp: should_log, reset_start_time"])
p("C67","An evaluation never fails in a sane environment",
  "If the environment's functions and the recommendations do not fail, non-terminal states have actions and n+k-1 fits an int, then no evaluation thread throws or runs into undefined behaviour, and run_rollouts returns if rollouts are bounded. In particular this holds for the policy of a UCT search stopped at any time, whose node always belongs to the rollout's current state.",
  "every such environment and policy, every n and k, every interleaving and random stream",
  SCHED, ["src/mc_eval.cpp: run_rollout, thread_run_rollouts, run_rollouts, EvalPolicy"])
p("C68","Recommendations during an evaluation may use the environment context",
  "The context passed to recommend_action in a rollout is a live object.",
  "every environment and policy",
  "Dangling references rarely show in tests.", ["src/mc_eval.cpp: run_rollout line 90", "src/thts_env.cpp: sample_context_itfc"])
p("C69","The environment template preserves transition probabilities",
  "In an environment written with the provided template, the probability of a state in the distribution seen by the search is the total probability the environment's distribution gives to that state.",
  "every environment distribution",
  INP, ["include/templates/thts_env_template.h: get_transition_distribution_itfc", "include/thts_types.h: StateDistr, hash and equal_to specialisations"])
p("C70","The environment template provides observation distributions",
  "In a fully observable environment written with the provided template, get_observation_distribution and its interface version return the next state with probability one.",
  "every next state",
  "No test instantiates the template.", ["include/templates/thts_env_template.h: get_observation_distribution, get_observation_distribution_itfc"])
p("C71","Searches with the MENTS relatives never fail with sane settings",
  "With a sane environment and settings no trial of a DB-MENTS, EST or DENTS search throws or runs into undefined behaviour if the search explores (or no random draw hits the probability lost with dropped tiny entries), and any number of trials can be completed.",
  "every such environment and setting, every number of threads, interleaving and random stream",
  SCHED, ["src/algorithms/ments/dbments_decision_node.cpp", "src/algorithms/ments/dbments_chance_node.cpp", "src/algorithms/ments/dents/dents_decision_node.cpp", "src/algorithms/ments/dents/dents_chance_node.cpp", "src/algorithms/est/est_decision_node.cpp", "src/algorithms/est/est_chance_node.cpp"])
p("C72","Average-return estimates of EST and DENTS are averages",
  "With use_dp_value off, at every moment the value estimate of a node is the mean of the returns it was backed up with (at decision nodes counting the heuristic value once more), and it is bounded by (max_depth+1) times the largest reward or heuristic value.",
  "every environment, every number of threads and interleaving",
  SCHED, ["src/algorithms/common/emp_node.cpp", "src/algorithms/ments/dents/dents_decision_node.cpp", "src/algorithms/est/est_decision_node.cpp"])
p("C73","Entropies in a DENTS search are well defined and bounded",
  "At every moment of a DENTS search the local and subtree entropies of all nodes are numbers (not NaN); local entropies are between 0 and the log of the number of actions (up to dropped entries), subtree entropies bounded by that times the remaining depth, and non-negative in single-player problems.",
  "every sane environment and setting, every number of threads and interleaving",
  SCHED, ["src/algorithms/common/ent_decision_node.cpp", "src/algorithms/ments/dents/dents_decision_node.cpp: dents_decision_node, itfc backup"])
p("C74","Between trials every value agrees with the values of the children",
  "Whenever no trial is under way, also after concurrent trials, the soft value, dynamic programming value and entropy stored at every node are exactly what a backup from the values now stored at its children gives; nodes without children have their heuristic value. No update is lost or based on stale children.",
  "every environment and setting without transposition table, every number of threads and interleaving, every number of trials; MENTS, DB-MENTS, DENTS, EST, TENTS",
  SCHED, ["src/thts.cpp: run_thts_trial, backup order and locks", "src/algorithms/ments/ments_decision_node.cpp: backup_soft", "src/algorithms/common/dp_decision_node.cpp: backup_dp_impl", "src/algorithms/common/ent_decision_node.cpp: backup_ent_impl"])
p("C75","Searches with RENTS and TENTS never fail with sane settings",
  "With a sane environment and settings no trial of a RENTS or TENTS search throws or runs into undefined behaviour if the search explores (or no random draw hits the probability lost with dropped tiny entries), and any number of trials can be completed. In particular every lookup in the trial's context and in the sorted maps succeeds.",
  "every such environment and setting, every number of threads, interleaving and random stream",
  SCHED, ["src/algorithms/ments/rents/rents_decision_node.cpp", "src/algorithms/ments/tents/tents_decision_node.cpp"])
p("C76","RENTS policies and values are relative to the parent's policy",
  "A RENTS node's search policy gives each action the parent's probability of that action times exp(Q/temp), normalised (mixed with prior and uniform exploration as in MENTS), and its backed-up value is temp times the log of the sum of these weights, with the sign of the player. If the weights vanish (sum below 1e-16 relative to the best action) the policy is uniform and the value is the largest Q.",
  "every node, Q values, temperature and parent policy",
  INP, ["src/algorithms/ments/rents/rents_decision_node.cpp: compute_action_weights, get_parent_distr_from_context", "src/algorithms/ments/ments_decision_node.cpp: backup_soft"])
p("C77","No action starves in a UCT or PUCT search",
  "With a positive or automatic bias, positive priors (if any) and no epsilon exploration: for every k, once enough selections were made at a node, every valid action of the node has been visited at least k times, however bad its returns look; at the root once enough trials were completed. How many are enough depends on the environment, settings, number of threads and k, not on the schedule or the random numbers.",
  "every sane environment, every k, every number of threads, interleaving and random stream",
  SCHED, ["src/algorithms/uct/uct_decision_node.cpp: fill_ucb_values, select_action_ucb, compute_ucb_term", "src/algorithms/uct/puct_decision_node.cpp: compute_ucb_term"])
p("C78","Dynamic programming values are those of an optimal plan for the sampled tree",
  "When no trial is under way in a DB-MENTS, DENTS or EST search without transposition table, the value of every decision node is what an optimal plan is worth there in the tree the search has built: rewards plus heuristic values where the tree ends, outcomes as frequent as they were sampled (the initial heuristic value counting as one sample). In two-player games the plan is optimal for both sides: neither gains by deviating. The tree determines the value.",
  "every environment, every number of threads, interleaving, random stream and number of trials; every plan",
  SCHED, ["src/algorithms/common/dp_decision_node.cpp: backup_dp_impl", "src/algorithms/common/dp_chance_node.cpp: backup_dp_impl", "include/algorithms/common/dp_decision_node.h: DPDNode"])
p("C79","Soft and sparse values are those of an optimal entropy-regularised plan for the sampled tree",
  "When no trial is under way and the temperature is fixed, the soft value of every decision node of a MENTS or DB-MENTS search without transposition table is what an optimal mixed plan is worth there in the tree the search has built, when whoever moves also earns the temperature times the entropy of their mixture, and actions that were never tried are worth the default value (or the log prior). For TENTS the same holds with the sparse (Tsallis) entropy.",
  "every environment, every number of threads, interleaving, random stream and number of trials; every mixed plan",
  SCHED, ["src/algorithms/ments/ments_decision_node.cpp: backup_soft", "src/algorithms/ments/ments_chance_node.cpp: backup_soft", "src/algorithms/ments/tents/tents_decision_node.cpp: spmax, backup_tents"])
p("C80","Recommendations by value are optimal for the sampled tree",
  "When no trial is under way in a DB-MENTS, DENTS or EST search without transposition table, and recommendations are made by value with every visited child counting, the recommended action at any node with children is the first action of a plan that is optimal for the tree the search has built. All such actions are equally likely to be recommended and no others ever are.",
  "every sane environment and setting, every number of threads, interleaving, random stream and number of trials",
  SCHED, ["src/algorithms/common/dp_decision_node.cpp: recommend_action_best_dp_value_impl", "src/algorithms/ments/dbments_decision_node.cpp: recommend_action", "src/algorithms/ments/dents/dents_decision_node.cpp: recommend_action"])
p("C81","Printed values identify what was printed",
  "A printed integer reads back as itself; states, or node ids, that print alike are equal; so are actions, and vectors of actions. Vectors and maps print all their elements, in order, and equal maps print alike. Printing a transposition table prints every entry, or throws if a node of it has been destroyed.",
  "every value of every provided class, every length, every iteration order",
  INP, ["src/thts_types.cpp: get_pretty_print_string, operator<<", "src/helper_templates.cc: vector_pretty_print_string, unordered_map_pretty_print_string"])
p("C82","Searches have no data races",
  "While a search runs, no two threads access the statistics or children of the same node, the transposition table, the random number generator or the logger at the same time if one of them writes. The same holds when a user who holds a node's lock asks it for a recommendation while the search is running.",
  "every algorithm, number of threads, schedule, hash function and iteration order of the children",
  SCHED, ["src/thts.cpp: run_selection_phase, run_backup_phase, try_log", "src/thts_decision_node.cpp: lock_all_children, unlock_all_children", "src/algorithms/uct/uct_decision_node.cpp: fill_ucb_values, recommend_action_best_empirical, recommend_action_most_visited", "src/algorithms/ments/ments_decision_node.cpp: recommend_action_best_soft_value, recommend_action_most_visited, backup_soft", "include/algorithms/common/dp_decision_node.h: recommend_action_best_dp_value"])
p("C83","Concurrent searches are serialisable",
  "Whatever nodes, table and thread-local data a search with several threads leaves, the same threads could have left it by running their locked sections (a selection at a node, the sampling of an outcome, a backup) one at a time from beginning to end.",
  "every number of threads and every interleaving of single lock, unlock, read and write operations; every algorithm, as a program of its locked sections",
  SCHED, ["src/thts.cpp: run_selection_phase, run_backup_phase", "src/thts_decision_node.cpp: lock_all_children, unlock_all_children", "src/algorithms/ments/dbments_decision_node.cpp: backup", "src/algorithms/ments/dents/dents_decision_node.cpp: backup", "src/algorithms/ments/ments_decision_node.cpp: backup_soft"])
p("C84","Rounding errors of UCT values stay small",
  "The value of a UCT node, computed in double precision, is a finite number that differs from the exact average of the returns of its trials by no more than a bound that grows linearly with the number of its backups and the depth limit: (2 n + 2 L + 5) 2^-52 times the largest possible return, for up to 2^31 backups.",
  "every environment and heuristic with double values of moderate size, every depth limit, every search with any number of threads and trials, every choice of actions and outcomes (hence every rounding of the UCB terms)",
  INP, ["src/thts.cpp: run_backup_phase", "src/algorithms/uct/uct_decision_node.cpp: backup_average_return", "src/algorithms/uct/uct_chance_node.cpp: backup_average_return"])
p("C85","Rounding does not push UCT values out of the range of the returns",
  "The value of a UCT node, computed in double precision, never leaves the range of the returns of its trials (and of its heuristic value, if that counts), however many trials are run; if all returns are the same number, the value is that number.",
  "every environment and heuristic with double values, every depth limit, every search with any number of threads and up to 2^52 backups of a node",
  INP, ["src/thts.cpp: run_backup_phase", "src/algorithms/uct/uct_decision_node.cpp: UctDNode, backup_average_return", "src/algorithms/uct/uct_chance_node.cpp: backup_average_return"])
p("C86","Without pseudo trials UCT ignores the heuristic function",
  "If heuristic_psuedo_trials is 0, the heuristic function has no influence on the values of a UCT search, as the documentation of UctManager says.",
  "every environment, heuristic function, depth limit and search",
  INP, ["include/algorithms/uct/uct_manager.h: heuristic_psuedo_trials", "src/algorithms/uct/uct_decision_node.cpp: UctDNode", "src/thts.cpp: run_selection_phase, run_backup_phase"])
p("C87","Soft values are computed stably in doubles",
  "The soft value of a MENTS node, computed in double precision from the values of its actions, is a finite number, however large the values are compared with the temperature (where the textbook formula would overflow); it differs from the exact log-sum-exp of the same values by a small multiple of 2^-53 times the largest value, plus the temperature times the errors of exp, log and of the summation. The average of a chance node is finite too, and differs from the exact weighted mean of its children's values by at most a small multiple of 2^-53 times the largest value for each child.",
  "every non-empty list of up to 2^31 action values and every temperature (both of moderate size), either player, every implementation of exp and log with a bounded error; every list of children and counts",
  INP, ["src/algorithms/ments/ments_decision_node.cpp: compute_action_weights, backup_soft", "src/algorithms/ments/ments_chance_node.cpp: backup_soft", "src/algorithms/common/dp_chance_node.cpp: backup_dp_impl"])
p("C88","MENTS searches in doubles stay finite and near the exact values of the tree",
  "In every state of a MENTS search computed in double precision, the value of every node is a finite number, no larger than what the rewards, leaf values, entropies and rounding errors of the levels below can add up to. Between trials (without transposition table, with a fixed temperature) it differs from what an optimal plan is worth in exact arithmetic by at most the rounding error of one decision node and one chance node for every level below the node: errors do not pile up with the number of trials. So the explored action with the highest computed value is the best one, up to twice that error.",
  "every environment and settings with numbers of moderate size, every number of threads and interleaving, every sequence of selected actions and sampled outcomes, every implementation of exp and log with a bounded error, every iteration order of the children",
  INP, ["src/algorithms/ments/ments_decision_node.cpp: MentsDNode, visit, get_soft_q_value, compute_action_weights, backup_soft", "src/algorithms/ments/ments_chance_node.cpp: MentsCNode, backup_soft", "src/thts.cpp: run_backup_phase"])
p("C89","Searches approach the values of the environment",
  "The environment with a depth limit has exactly one value function (by backward induction; with the temperature times the entropy of the mover's choice added for MENTS, the sparse entropy for TENTS). Between trials of a search in whose tree every action was tried wherever there was a choice, and outcomes were sampled as often as they are likely up to an error eps, the value of every node and action differs from that of the environment by at most eps times a bound that only depends on rewards, leaf values and the number of decisions left. Recommendations by value are worth what the best action is worth up to twice that. Where actions have certain outcomes, the values are exactly those of the environment, and the recommended action is one of the best, each equally likely.",
  "every environment with bounded rewards, one or two players, every depth limit, temperature, prior, number of threads, interleaving and every search whose tree is explored and sampled in this way",
  INP, ["src/algorithms/common/dp_decision_node.cpp: backup_dp_impl", "src/algorithms/common/dp_chance_node.cpp: backup_dp_impl", "src/algorithms/ments/ments_decision_node.cpp: backup_soft", "src/algorithms/ments/ments_chance_node.cpp: backup_soft", "src/algorithms/ments/tents/tents_decision_node.cpp: backup_tents", "src/algorithms/ments/dbments_decision_node.cpp: recommend_action", "src/algorithms/ments/dents/dents_decision_node.cpp: recommend_action", "src/algorithms/est/est_decision_node.cpp: backup"])
p("C90","No part of the environment is out of reach of a search",
  "With positive exploration a search of the MENTS family never shuts itself off from anything the environment allows: whatever it has done so far, when no trial is under way and for any routes of actions and possible outcomes from the root, up to the maximal depth, there are random draws with which the search goes on, completes at most as many further trials as the routes have steps, does not fail, and has every one of the routes in its tree. So from every such state it can still build the whole environment, and where actions have certain outcomes its values can still become exactly those of the environment. A trial visits a decision node at most once.",
  "every environment, MENTS, DB-MENTS, DENTS, EST, RENTS and TENTS with positive epsilon, every number of threads, every history of trials up to a number of visits that exploration allows, every set of routes",
  INP, ["src/algorithms/ments/ments_decision_node.cpp: compute_action_weights, select_action_ments", "src/algorithms/ments/ments_chance_node.cpp: sample_observation_random", "src/algorithms/ments/dbments_decision_node.cpp: select_action", "src/algorithms/ments/dents/dents_decision_node.cpp: select_action", "src/algorithms/est/est_decision_node.cpp: select_action", "src/algorithms/ments/rents/rents_decision_node.cpp: select_action", "src/algorithms/ments/tents/tents_decision_node.cpp: select_action", "include/helper_templates.h: sample_from_distribution", "src/thts.cpp: run_thts_trial, run_selection_phase, run_backup_phase"])
p("C91","UCT and PUCT converge to the values of the environment",
  "The average return of a decision node tends to the value of its state under best play (of both players in two-player games) as the node is visited more and more, that of a chance node to what its action is worth, the share of selections that go to actions which are not best tends to zero, and after enough visits both recommendation rules recommend a best action whatever the random numbers. At the root the same holds in terms of completed trials. Enough means a number that depends on the state, the decisions left, the accuracy, the number of threads and on how fast the sampled outcomes of chance nodes reach their frequencies, but not on the interleaving or the draws; where actions have certain outcomes every run converges.",
  "every environment, UCT and PUCT with power in (0,1), every bias, prior and tie order, every number of threads, every interleaving, every stream of draws whose outcomes are fair, every node, every accuracy",
  INP, ["src/algorithms/uct/uct_decision_node.cpp: compute_ucb_term, fill_ucb_values, select_action_ucb, recommend_action_best_empirical, recommend_action_most_visited, backup_average_return", "src/algorithms/uct/uct_chance_node.cpp: sample_observation_random, backup_average_return", "src/algorithms/uct/puct_decision_node.cpp: compute_ucb_term", "src/thts.cpp: run_thts_trial, run_selection_phase, run_backup_phase"])
p("C92","Dynamic programming values in doubles stay finite and near the exact values of the tree",
  "In every state of a search whose values are backed up by dynamic programming in double precision, the value of every node is a finite number, no larger than what the rewards, a leaf value and rounding errors of the levels below can add up to. Between trials (without transposition table) it differs from what an optimal plan is worth in exact arithmetic by at most the rounding error of one chance node for every level below the node: errors do not pile up with the number of trials, and taking the best child adds none. A recommendation by these values never fails at a node with children and returns the best of the explored actions for whoever moves, up to twice that error.",
  "every environment and settings with numbers of moderate size, one or two players, every number of threads and interleaving, every sequence of selected actions and sampled outcomes, every iteration order of the children",
  INP, ["src/algorithms/common/dp_decision_node.cpp: DPDNode, visit_dp, recommend_action_best_dp_value_impl, backup_dp_impl", "src/algorithms/common/dp_chance_node.cpp: DPCNode, backup_dp_impl", "include/helper_templates.h: get_max_key_break_ties_randomly", "src/thts.cpp: run_backup_phase"])
p("C93","UCT and PUCT converge with probability close to one",
  "For every delta and eps there is a number of trials from which on, with probability at least 1 - delta and at every moment, the average return at the root of a UCT or PUCT search is within eps of the value of the root under best play, and both recommendation rules recommend a best action; the same holds at every node in terms of its visits. The probability is over the uniform random numbers that outcomes are sampled with; ties may be broken in any way, and the threads may be scheduled by an adversary who knows everything that happened so far, but not the coming random numbers. The number of trials does not depend on the scheduler, on the ties, on how many trials follow, or on how finely the random numbers are divided.",
  "every environment with rational probabilities, UCT and PUCT with power in (0,1), every bias, prior and tie order, every number of threads, every scheduler that cannot see the future, every number of trials, every accuracy and error probability",
  "Tests sample a few seeds and schedules; a probability bound ranges over all sequences of draws.", ["src/algorithms/uct/uct_decision_node.cpp: select_action, select_action_ucb, recommend_action, backup_average_return", "src/algorithms/uct/uct_chance_node.cpp: sample_observation_random, backup_average_return", "src/algorithms/uct/puct_decision_node.cpp: compute_ucb_term", "include/helper_templates.h: sample_from_distribution", "include/thts_manager.h: get_rand_uniform", "src/thts.cpp: run_thts_trial, run_selection_phase, run_backup_phase"])
p("C94","The search tree cannot outgrow the environment",
  "However many trials and threads, the tree never has more decision nodes than the environment has histories of at most max_depth steps, nor more chance nodes than there are choices on them; so with at most a actions and b outcomes there are at most 1 + ab + ... + (ab)^max_depth decision nodes. With the transposition table there is at most one decision node for each state and depth. Without it, a search that has explored everything has exactly one decision node for every history. Memory is therefore bounded, whatever the number of trials.",
  "every environment, every number of threads and trials, every schedule, every algorithm, with and without the transposition table",
  "Tests stop after some trials; a leak or a duplicate node may show up only after many more or under a rare interleaving.", ["src/thts_decision_node.cpp: create_child_node_itfc", "src/thts_chance_node.cpp: create_child_node_itfc", "src/thts.cpp: run_selection_phase, should_continue_selection_phase", "include/thts_manager.h: dmap, use_transposition_table"])
p("C95","MENTS and its relatives explore everything and converge with probability close to one",
  "For every delta and eps there is a number of trials from which on, with probability at least 1 - delta, MENTS, DB-MENTS, EST, RENTS, TENTS and DENTS have tried every action wherever they can go and have sampled outcomes in proportions within eps of their probabilities. Then the dynamic-programming values of DB-MENTS, DENTS and EST are close to the values of the game and their recommendations are best actions, and the soft values of MENTS, DB-MENTS and TENTS at a fixed temperature are close to those of the game with a bonus for (sparse) entropy. Exploration settings must give each action some probability q for that number of visits. The threads may be scheduled by an adversary who does not know the coming random numbers; the number of trials does not depend on the scheduler or on any settings besides q.",
  "every environment with rational probabilities, every search of the MENTS family with enough exploration, every prior, temperature, scale and tie order, every number of threads, every scheduler that cannot see the future, every number of further trials",
  "Tests sample a few seeds and schedules; a probability bound ranges over all sequences of draws.", ["src/algorithms/ments/ments_decision_node.cpp: select_action, compute_action_distribution, backup", "src/algorithms/ments/ments_chance_node.cpp: sample_observation, backup_soft", "src/algorithms/ments/dbments_decision_node.cpp: backup, recommend_action_best_dp_value", "src/algorithms/ments/rents/rents_decision_node.cpp: select_action_rents, compute_action_weights", "src/algorithms/ments/tents/tents_decision_node.cpp: compute_action_weights, backup_tents", "src/algorithms/ments/dents/dents_decision_node.cpp: get_soft_q_value, recommend_action", "src/algorithms/est/est_decision_node.cpp: get_soft_q_value, backup", "include/helper_templates.h: sample_from_distribution", "include/thts_manager.h: get_rand_uniform", "src/thts.cpp: run_thts_trial"])
p("C96","Searches in doubles approximate the values of the environment and recommend nearly best actions",
  "When no trial is under way, every action was tried wherever there was a choice and outcomes were sampled in proportions within eps of their probabilities, the double held as the dynamic programming value of any node (or as the soft value of MENTS at a fixed temperature) differs from the exact value of the environment by at most a sampling error proportional to eps plus one fixed rounding error per decision left, however long the search ran. A recommendation by dynamic programming value succeeds and loses at most twice that against best play; it is a best action if all others lose more.",
  "every environment with bounded numbers, every schedule, number of threads, choice of actions and length of search without transposition table, every libm with bounded error, every iteration order of the child maps",
  "Tests compare a few values with a tolerance; that rounding cannot build up over an unbounded search, nor sampling and rounding errors conspire, is a statement about all searches.", ["src/algorithms/common/dp_decision_node.cpp: backup_dp, recommend_action_best_dp_value", "src/algorithms/common/dp_chance_node.cpp: backup_dp", "src/algorithms/ments/ments_decision_node.cpp: backup_soft", "src/algorithms/ments/ments_chance_node.cpp: backup_soft"])
p("C97","Sharing nodes through the transposition table keeps recommendations close to best play",
  "When no trial is under way, every action was tried wherever there was a choice, every chance node was visited at least k times and the outcomes that followed there came in proportions within eps of their probabilities, the action that EST with dynamic programming values recommends loses at most twice the sampling error for eps plus a term that falls with k. (False with the transposition table: the values of shared nodes are weighted by visits from all parents, so that a search recommends the worse of two actions however long it runs, although all outcomes came exactly as often as they are likely. True without the table.)",
  "every environment with bounded numbers, every schedule, number of threads, choice of actions and length of search, with and without transposition table",
  "Tests run for a bounded time: an error that never goes away cannot be told from one that goes away slowly, and its absence is a statement about all searches.", ["src/algorithms/common/dp_chance_node.cpp: backup_dp_impl", "src/thts_chance_node.cpp: create_child_node_itfc", "src/algorithms/est/est_decision_node.cpp: recommend_action", "include/thts_manager.h: use_transposition_table"])
p("C98","Where actions have certain outcomes, values become exact and stay exact, also with the transposition table",
  "If every action has exactly one outcome: once no trial is under way and every action was tried wherever there is a choice, and after that every known action was tried again everywhere as many times in turn as the search is deep, each value held by a node is exactly the one the environment defines by backward induction, and it stays so for ever, whatever the search does next and also while trials are under way. From then on every action recommended by value is a best one. Holds for the dynamic programming values of DB-MENTS, DENTS and EST and for the soft values of MENTS at a fixed temperature.",
  "every environment with certain outcomes, every history of the search, schedule, number of threads and later continuation, with and without transposition table, one or two players",
  "Stale values of shared nodes could come back in any later backup of any schedule; tests see a few runs and cannot exclude that a value is ever overwritten by a wrong one.", ["src/algorithms/common/dp_chance_node.cpp: backup_dp_impl", "src/algorithms/common/dp_decision_node.cpp: backup_dp_impl", "src/algorithms/ments/ments_decision_node.cpp: backup_soft", "src/algorithms/ments/ments_chance_node.cpp: backup_soft", "src/thts_chance_node.cpp: create_child_node_itfc"])
p("C99","The counters of nodes cannot overflow before 2^31 trials",
  "At every moment of a search, the decision nodes of one depth have together at most one visit per trial started, and so have the chance nodes of one depth; hence the num_visits of a node stays at most the number of trials started (plus the pseudo trials that UCT gives to new nodes), and every num_backups of a node stays between 0 and the number of trials started plus what new nodes start with (pseudo trials for UCT, 0 for MENTS, RENTS and TENTS, 1 for the DP, entropy and empirical counters of DB-MENTS, DENTS and EST). All of them therefore fit in an int while fewer than 2^31 trials (less the initial values) were started; after that many trials the root's num_visits has overflowed.",
  "every environment, every algorithm and configuration, every schedule and number of threads, every moment also while trials are under way, with and without transposition table",
  "Overflow happens after billions of trials, and with the transposition table a node is reached from many parents at once; tests run few trials and cannot bound the sum over all parents for all schedules.", ["src/thts_decision_node.cpp: visit_itfc", "src/thts_chance_node.cpp: visit_itfc", "include/thts_decision_node.h: num_visits", "include/thts_chance_node.h: num_visits", "src/algorithms/uct/uct_decision_node.cpp: backup_average_return", "src/algorithms/ments/ments_decision_node.cpp: backup_soft", "src/algorithms/common/dp_decision_node.cpp: backup_dp_impl", "src/algorithms/common/ent_decision_node.cpp: backup_ent", "src/algorithms/common/emp_node.cpp: backup_emp"])
p("C100","Searches can be reproduced from the seed unless trials overlap",
  "With one worker, the tree, all values in its nodes and the state of the random generator after k trials are determined by the environment, the configuration and the sequence of random numbers; hence two searches with the same seed agree, and a search run in several parts ends as one run at once. The same holds for more workers, and between searches with different numbers of workers, as long as no trial starts while another one is under way. It does not hold when trials overlap.",
  "every environment, algorithm, configuration, sequence of random numbers, number of trials, number of workers and schedule",
  "A test can compare a few runs; that nothing but the random numbers enters, for any environment, length and split of the runs, is a statement about all executions.", ["src/thts.cpp: run_thts_trial", "src/thts.cpp: run_selection_phase", "src/thts.cpp: run_backup_phase", "include/thts_manager.h: ThtsManagerArgs::seed", "include/thts_manager.h: RandManager"])
p("C101","The unit of rewards does not matter without priors",
  "Multiply all rewards and heuristic values by one positive factor, and the settings measured in the same unit with them: the bias of UCT and PUCT, or the temperature, the minimal temperatures, the value temperature and the default value of MENTS, RENTS, TENTS, DB-MENTS, DENTS and EST. With the same schedule and the same random numbers the search then builds the same tree, selects the same actions, samples the same outcomes and recommends the same actions, and every value in the tree is multiplied by the factor. For UCT this assumes that returns are doubles in both units and that the bias is a fixed one (C22 is about the automatic bias). With a prior policy it fails for MENTS: the logarithm of the prior stands beside the values and does not scale with them.",
  "every environment, configuration (without a prior for MENTS and its relatives), positive factor, number of threads, schedule and sequence of random numbers",
  "A test can compare two runs in two units; that no decision of any run of any length depends on the unit is a statement about pairs of executions.", ["src/algorithms/uct/uct_decision_node.cpp: fill_ucb_values", "src/algorithms/ments/ments_decision_node.cpp: compute_action_weights", "src/algorithms/ments/ments_decision_node.cpp: get_soft_q_value", "src/algorithms/ments/ments_decision_node.cpp: backup_soft", "src/algorithms/ments/rents/rents_decision_node.cpp: compute_action_weights", "src/algorithms/ments/tents/tents_decision_node.cpp: spmax", "src/algorithms/ments/dents/dents_decision_node.cpp: get_soft_q_value", "src/algorithms/common/decaying_temp.cpp: compute_decayed_temp", "src/algorithms/common/dp_decision_node.cpp: backup_dp_impl"])
p("C102","Nodes and managers live exactly as long as somebody needs them",
  "After any history of making managers and roots, creating children, obtaining and giving up pointers, a manager or node exists exactly if somebody outside still has a pointer to it or it is a child or the manager of a node that exists and is itself needed. So no node that can be reached is destroyed (no dangling pointers), once all pointers are given up nothing is left (no leaks), also with nodes shared by several trees through the transposition table, no object is destroyed twice, and giving up a pointer nests at most 2*max_depth+2 destructor calls.",
  "every history of operations on any number of managers, roots and trees, every order of giving up pointers, with and without transposition table, every tree depth",
  "Leaks and dangling pointers depend on the whole history and on the shape of the tree; tests see a few histories and rarely look at what is not freed.", ["include/thts_types.h: DNodeTable", "include/thts_decision_node.h: parent, children, thts_manager", "include/thts_chance_node.h: parent, children, thts_manager", "src/thts_decision_node.cpp: create_child_node_itfc", "src/thts_chance_node.cpp: create_child_node_itfc", "include/thts.h: root_node", "include/mc_eval.h: EvalPolicy::cur_node"])
p("C103","Average returns of DENTS and EST computed in doubles are accurate and stay in range",
  "When the algorithms that use average returns (DENTS and EST without dynamic programming values) compute in doubles, the estimate of every node is at every moment a finite number, differs from the exact average of its returns (with the heuristic value counted once at decision nodes) by at most (2n+2L+5) 2^-52 times the largest possible return (n backups, depth limit L-1), and never leaves the range of the returns and the heuristic value. A recommendation by value at a node with children always succeeds and returns an action tried often enough (if there is one) such that no other one has an exact average that is better by more than these errors.",
  "every environment whose rewards and heuristic values are doubles between 2^-900 and 2^900 in size, every search and schedule, every way of selecting actions and outcomes and every other member of the nodes, up to 2^31 backups of a node, every order of the hash maps and every stream of random integers",
  "Rounding errors accumulate over millions of updates; tests run few trials and compare with a tolerance.", ["src/algorithms/common/emp_node.cpp: backup_emp, recommend_action_best_emp_value_impl", "include/algorithms/common/emp_node.h: EmpNode", "src/algorithms/est/est_decision_node.cpp: backup", "src/algorithms/ments/dents/dents_decision_node.cpp: backup", "src/thts.cpp: run_trial"])
p("C104","Searches with default arguments never fail",
  "A search with UCT, PUCT, MENTS, DB-MENTS, DENTS, EST, RENTS or TENTS whose algorithm-specific arguments are the defaults never throws and never runs into undefined behaviour, whatever the depth limit, heuristic, prior policy, number of players, mode and use of the transposition table (the defaults of which always make sense). For MENTS and its relatives this holds while no visit counter overflows; UCT and PUCT can moreover complete any number of trials. Recommendations with default arguments succeed at every node that is not a sink (for MENTS also above the depth limit), during and after the search: UCT and PUCT choose fairly among the most visited children, MENTS among the actions of largest soft value, DB-MENTS, DENTS and EST among the children of best dynamic programming value.",
  "every environment in which states that are not sinks have actions (for MENTS and relatives at most 10^14), outcome probabilities are positive and sum to one, rewards and heuristic values are bounded (for UCT, PUCT and recommendations by 2^900); every number of threads, schedule and stream of random numbers",
  "The failure of a default would only show for rare random numbers, extreme values, long searches or special schedules; tests run a few short searches.", ["include/thts_manager.h: ThtsManagerArgs, ThtsManager", "include/algorithms/uct/uct_manager.h: UctManagerArgs, UctManager", "include/algorithms/uct/puct_manager.h: PuctManagerArgs", "include/algorithms/ments/ments_manager.h: MentsManagerArgs, MentsManager", "include/algorithms/ments/dents/dents_manager.h: DentsManagerArgs, DentsManager"])
p("C105","Values of RENTS stay within bounds, so its recommendations succeed",
  "During every RENTS search the soft value of every node is at most B + k (B + T ln max(N, 10^16)) in size, where k is the number of steps to the depth limit, B bounds rewards and initial values, T temperatures and N the number of actions. As long as this stays within the range of doubles (with default arguments: for rewards and heuristic values up to 2^900), a recommendation succeeds at every node that is not a sink, and is an action of largest value among those visited often enough or, if set so, a most visited child.",
  "every environment and setting with bounded rewards and initial values, every number of threads, schedule and stream of random numbers, every node at every moment",
  "Relative weights can vanish or cancel for special combinations of parent policies and values that tests do not produce.", ["src/algorithms/ments/rents/rents_decision_node.cpp: compute_action_weights", "src/algorithms/ments/ments_decision_node.cpp: backup_soft, recommend_action_best_soft_value"])
p("C106","Values of TENTS stay within bounds, so its recommendations succeed",
  "During every TENTS search the value of every node is at most B + k (B + T ln max(N, 2)) in size, where k is the number of steps to the depth limit, B bounds rewards and initial values, T temperatures and N the number of actions. As long as this stays within the range of doubles (with default arguments: for rewards and heuristic values up to 2^900), a recommendation succeeds at every node that is not a sink, and is an action of largest value among those visited often enough or, if set so, a most visited child.",
  "every environment and setting with bounded rewards and initial values, every number of threads, schedule and stream of random numbers, every node at every moment",
  "TENTS keeps stored values that were divided by the temperature of an earlier visit and multiplies the result by the current one; whether values can grow this way depends on the order of all visits.", ["src/algorithms/ments/tents/tents_decision_node.cpp: TentsDNode", "src/algorithms/ments/ments_decision_node.cpp: recommend_action_best_soft_value"])
out = os.path.join(os.path.dirname(os.path.abspath(__file__)), "..", "properties.jsonl")
with open(out, "w") as f:
    for x in P: f.write(json.dumps(x) + "\n")
print(len(P))
