# Formal model of thts-plus-plus in Rocq

The model lives in `rocq/theories/` (logical name `Verif`). For each area there are up to four kinds of file:

* `XModel.v`: Gallina definitions, each citing the C++ file and lines it models and what is simplified. No proofs.
* `XSpec.v`: a small specification vocabulary written without the model's helpers.
* `XProofs.v`, `XInv.v`, `XRun.v`, `XResults.v`, `XWitness.v`: lemmas, invariants, concrete runs.
* `XTheorems.v`: the property theorems, closed by `exact lemma.`, with `Print Assumptions` beneath and `Example`s that
  meet the hypotheses.

`properties.jsonl` lists the properties, `MANIFEST.json` the theorems that settle them, `ASSUMPTIONS.md` what
`Print Assumptions` prints for each of them, and `seeded/LOG.jsonl` the wrong programs the theorems were tested against.
(`tools/` holds the scripts that write these files and this one.)

## 1. Reading the results

* A property the code satisfies has status *proved*; its theorems quantify over all inputs, states, schedules and
  random streams the property speaks about. There is no bound on sizes, depths, threads or steps.
* A property the code does **not** satisfy has a theorem ending in `_refuted`, which exhibits a concrete input, run or
  history of the model that breaks it, and (where something is true) a theorem ending in `_partial` that says under which
  extra hypotheses it holds. Its status is *partial*. The full statement stays in `properties.jsonl`.
* Hypotheses on environments and settings (`env_ok`, `temps_ok`, `prior_ok`, `values_ok`, `few_actions`, `explore_ok`, `sane`, …) are
  defined in the `Spec` files and are met by the examples `uct_ex_conf`/`uct_ex`, `ments_ex_conf`/`ments_ex` (a two-player walk
  with random outcomes), for which complete searches on several threads are shown to exist.

## 2. Modelling decisions

* **Numbers.** `double` is idealised as the real numbers `R` of Coq's standard library wherever the property is about
  exact arithmetic. Code that needs only + - * / and comparisons is written once over a record of operations (`numops`,
  NumOps.v) and instantiated with `R` (`R_ops`) and with binary64 (`F_ops`, the standard library's axiom-free `SpecFloat`); refutations
  that depend on rounding, infinities or NaN use the latter. The returns and averages of UCT (and, in Emp64Model.v, C103, those of DENTS and EST) are also modelled in binary64 and in
  real arithmetic with an arbitrary rounding (RoundModel.v), and C84, C85 bound what rounding does to them. So are the soft values and averages of MENTS (LseModel.v, C87, and over whole searches Ments64Model.v, C88), with exp and log any functions that have a bounded error, and the dynamic programming values of DB-MENTS, DENTS and EST (Dp64Model.v, C92); C96 adds the distance to the values of the environment. `std::numeric_limits<double>::lowest()` is the real `dbl_lowest`. Where
  the code itself produces NaN (entropies in DENTS with epsilon 0), the value is `option R` with `None` for NaN. `int` is `Z`;
  overflow is modelled only where a theorem speaks about it (C67_overflow); C99 bounds the counters of nodes, so that they agree with the unbounded integers of the model for 2^31 trials.
* **Maps.** `std::unordered_map` is an association list in iteration order. Maps built by the code are handed to
  an arbitrary permutation (`uorder`, `morder`) before being iterated, so theorems hold for every iteration order. `std::multimap` (TENTS) is
  a sorted list with insertion after equal keys. `map::at` of a missing key throws.
* **Randomness.** A stream of integers and of reals in [0,1) (`rng`), consumed by counters; theorems quantify over all streams.
  "Probability" is the number of indices or the length of the interval of draws that lead to a result; over whole searches (C93, C95) it is the share of all sequences of draws from finitely many equally likely values.
* **Exceptions and undefined behaviour** are distinct outcomes: `Ok x | Throw | UB`. A search that reaches one stops with
  that failure recorded (`afail`), so "never fails" is a statement about all runs.
* **Concurrency.** Small-step labelled transition systems: one label per atomic action of one thread. Theorems are inductions over
  arbitrary label lists. In the engine one step is one locked section of a trial (visit+select+create child, sample+create child, backup of one
  node), or, where a backup locks and reads the children several times (DB-MENTS, DENTS), one of these looks: other threads
  may change the children between two looks, the node itself stays locked (`blocked`); LockModel.v models the lock operations themselves, one by one.
* **Algorithms** are records (`algo` in AlgoModel.v) of node members, constructors and the virtual functions visit, select_action,
  sample_observation and backup; they are plugged into one engine, so that facts about the engine (C08-C14, C61, C62) hold for all of them.
* **Shared pointers.** Nodes are heap indices. Lifetimes matter only for the transposition table, where TTModel.v models
  weak pointers and destruction.

## 3. What is modelled

| File(s) in /repo | Model |
|---|---|
| src/thts.cpp, include/thts.h (ThtsPool: constructor, destructor, workers, run_trials, join, set_new_env; trial loop and backups) | PoolModel.v (threads, mutex, condition variables, clock, spurious wakeups), EngineModel.v (trials on the tree), ProductModel.v (both together) |
| src/thts_decision_node.cpp, thts_chance_node.cpp, headers | EngineModel.v (constructors, create/get/has child, visits, leaf tests), NodeModel.v (roles, heuristic of sinks, pretty printing), TTModel.v (transposition table), LockModel.v (locks) |
| src/algorithms/uct/* (UCT, PUCT nodes; manager settings) | UctModel.v; RoundModel.v (returns and averages in doubles) |
| src/algorithms/ments/* (MENTS, DB-MENTS, DENTS, RENTS, TENTS), src/algorithms/est/*, src/algorithms/common/* (dp, emp, ent nodes, decaying temperature) | MentsModel.v; LseModel.v, Ments64Model.v (soft values, averages and MENTS searches in doubles) |
| src/algorithms/*/..._logger.cpp, src/thts_logger.cpp | LoggerModel.v |
| src/mc_eval.cpp | EvalModel.v |
| src/helper_templates.cc (get_max_key_break_ties_randomly, sample_from_distribution) and the random functions of include/thts_manager.h | HelperModel.v, MapModel.v |
| printing: get_pretty_print_string and operator<< of src/thts_types.cpp, vector_pretty_print_string and unordered_map_pretty_print_string of src/helper_templates.cc | PrintModel.v |
| where nodes, table, generator and logger are accessed between the lock operations of LockModel.v: src/thts.cpp, the select, sample, backup and recommend methods of all algorithms | AccessModel.v |
| the same sections with their effects, at the granularity of single operations | SerialModel.v |
| src/distributions/* | DistModel.v |
| src/thts_env.cpp, include/thts_env.h, include/templates/thts_env_template.h | EnvModel.v |
| src/thts_env_context.cpp | ContextModel.v |
| src/thts_types.cpp | TypesModel.v |

**Not modelled**: rounding inside the algorithms other than in the returns and averages of UCT, DENTS and EST, the soft backups and averages of MENTS and dynamic programming backups (section 2); memory layout, allocation failure, exceptions thrown by user-defined environments
inside a trial; the C++ memory model below the level of mutexes (C82 shows that data are touched only under their locks, so that treating a
locked section as one step is justified; C83 shows this for UCT, PUCT, MENTS, RENTS, EST and TENTS. The backups of DB-MENTS and DENTS lock and read the children two or three times and unlock them in between: in AlgoModel.v each of these looks is a step of its own, see section 2; where the code touches data without the lock this is part of the model or a finding below); `include/templates/thts_*_node_template.h` (text to be copied by users; not compiled; its generated part only casts
arguments and forwards to the modelled interface); how doubles and pointers are printed; the contents of log rows beyond the
columns and positions of C51-C53, C66; /repo/test and /repo/external.

## 4. Trusted base

* Coq 8.16.1's kernel (type checker, including its virtual machine where a proof uses `vm_compute`), the compilation of the files by
  coqc, and the standard library. Flocq is used in the proofs of C84 and C85 (DoubleProofs.v) and in no definition or statement: the
  theorems there speak of the standard library's `SpecFloat` and reals. It brings no axioms of its own.
* Axioms: only those of the standard library's real numbers and the classical logic they use, as printed by `Print Assumptions` under each theorem and collected in
  `ASSUMPTIONS.md`: `ClassicalDedekindReals.sig_forall_dec`, `ClassicalDedekindReals.sig_not_dec`,
  `FunctionalExtensionality.functional_extensionality_dep` and `Classical_Prop.classic`. Of the theorems in the manifest, those on pool, locks, table, types, contexts, nodes
  and generic helpers are closed under the global context.
* The model is a hand translation: that the definitions say what the cited C++ lines do is not checked by machine. The comments cite lines so that this can be reviewed,
  and the mutation log shows that the theorems react to realistic changes of the definitions.
* No axioms, parameters, admitted proofs, functors, module types or plugins of our own; section variables are discharged.

## 5. Per property

@@TABLE@@
## 6. Findings

Defects of the code at this commit that the theorems establish (the theorem in brackets):

1. `set_new_env` only checks whether trials remain to be started, not whether some are in progress: it can replace manager and root under running workers (C06_refuted, C06_throws_iff).
2. A blocking `run_trials(n, t)` can hang after its time limit: nobody wakes the caller if the limit passes while workers sleep (C04_refuted, C04_refuted_between_checks). With zero threads
   it hangs always (C03_zero_threads_refuted). The pool uses `system_clock`, so setting the clock back restarts trials after join (C02_clock_set_back_refuted).
3. `get_max_key_break_ties_randomly` takes a remainder by zero if all values are -infinity, and NaN counts as a tie (C25_*).
4. `sample_from_distribution` throws on ten entries of 0.1 in binary64 (C26_binary64_refuted), for `normalised=false` and sums below one (C27_refuted), and on trailing zero entries (C28_refuted).
5. `CategoricalDistribution::update` with a new key or with a map of another size is undefined behaviour (C32_new_key_refuted, C33_*_refuted).
6. The transposition table: several mutexes do not exclude each other on the shared map, zero mutexes index out of bounds (C15_*_refuted); expired weak pointers make a reused manager throw (C16_reuse_refuted);
   MENTS-like algorithms can deadlock with it (C17_table_refuted). Backups weigh a shared child by its visits from all parents, so that values and recommendations can stay wrong forever (C97_table_refuted).
7. MENTS drops probabilities below 1e-16 without renormalising, so that a draw near one throws (C37_samples_refuted). The shift of pseudo Q-values divides by a counter that is never incremented (C41_mean_refuted),
   `psuedo_q_value_offset` is ignored unless shifting; logs of prior weights are clamped to ±32 at 1e±32, which is not monotone (C64_prior_order_refuted).
8. In mcts_mode the counts used as weights of outcomes differ from the number of samples (C40_refuted, C40_dp_refuted).
9. DENTS with epsilon 0 computes 0/0 in its constructor and throws in the second trial (C71_dents_refuted, C73_entropies_refuted).
10. TENTS with a temperature decay ranks actions by stale values and its soft value can fall below the best Q value (C45_*_refuted). RENTS normalises by the maximum over all actions, also those absent from the parent's policy; if the
    remaining weights are below 1e-16 it falls back to uniform weights, and the value becomes the largest Q (C76_rents_value).
11. `max_trial_length` of the Monte-Carlo evaluation has no effect (C48_refuted); `get_stddev_return` returns the variance, and NaN for one return (C49_*_refuted); the context given to recommendations is a destroyed temporary (C68_context_refuted).
12. The logger never initialises its counters, logs at other positions in later runs, loses or double counts prior runtimes, slices the rows of algorithm loggers (C51-C53, C66 `_refuted`).
13. `recommend_action` of UCT and MENTS, and every recommendation by visits, reads the children without locking them: asking for a recommendation while a search runs is a data race,
    also for a caller who holds the node's lock (C82_recommend_refuted).
14. DB-MENTS and DENTS release the children's locks in the middle of a backup, so that the soft value, the dp value and the entropy of a node can stem from different states of its children until its next backup (C83_refuted). All theorems about searches of these algorithms (such as C71 and C74) are about a model with this behaviour.
15. The environment template merges probabilities of equal states wrongly and dereferences a null shared_ptr (C69_refuted, C70_refuted).
16. `UctManager`'s documentation says that zero pseudo trials make UCT ignore the heuristic. It is still added to every return (C86_heuristic_ignored_refuted), and it is the start of the running average,
   where it cancels only in exact arithmetic: a heuristic value of 2^60 makes the value after a first return of 1 equal to 0 (C85_zero_pseudo_trials_refuted).

Observations without a property: a MENTS node created in mcts_mode that is not a leaf has its heuristic value replaced at the first backup; with the
table, in mcts_mode a shared but old child also ends the trial.

## 7. Tests with wrong programs

`seeded/mutations_*.json` are edits of the model files (file, old text, new text, the claim they break), `seeded/harness.py` applies each in a scratch clone, rebuilds and records
which theorems fail; `seeded/LOG.jsonl` holds one line per attempt, including the theorems that were tightened as a consequence.
That a theorem "failed" means that its proof no longer goes through for the edited model. The harness does not decide whether the statement itself has become false, so a
long list of failures is no measure of strength. The result that matters is an edit after which a theorem whose English claim is now false still proves: those were tightened.
