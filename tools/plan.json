{
 "C01": [
  "PoolModel.v: n workers, client, mutex, condition variables, clock, spurious wakeups",
  "inductive invariant over all label lists"
 ],
 "C02": [
  "PoolModel.v: n workers, client, mutex, condition variables, clock, spurious wakeups",
  "inductive invariant over all label lists"
 ],
 "C07": [
  "PoolModel.v: n workers, client, mutex, condition variables, clock, spurious wakeups",
  "inductive invariant over all label lists"
 ],
 "C03": [
  "PoolModel.v: n workers, client, mutex, condition variables, clock, spurious wakeups",
  "invariant for progress, decreasing measure for the number of steps"
 ],
 "C05": [
  "PoolModel.v: n workers, client, mutex, condition variables, clock, spurious wakeups",
  "invariant for progress, decreasing measure for the number of steps"
 ],
 "C04": [
  "PoolModel.v: n workers, client, mutex, condition variables, clock, spurious wakeups",
  "refuted by explicit schedules and an invariant of all their continuations; positive cases by invariant"
 ],
 "C06": [
  "PoolModel.v: n workers, client, mutex, condition variables, clock, spurious wakeups",
  "refuted by explicit schedules and an invariant of all their continuations; positive cases by invariant"
 ],
 "C08": [
  "EngineModel.v: heap of nodes, any number of threads running trials in any interleaving",
  "inductive invariants over label lists"
 ],
 "C09": [
  "EngineModel.v: heap of nodes, any number of threads running trials in any interleaving",
  "inductive invariants over label lists"
 ],
 "C12": [
  "EngineModel.v: heap of nodes, any number of threads running trials in any interleaving",
  "inductive invariants over label lists"
 ],
 "C13": [
  "EngineModel.v: heap of nodes, any number of threads running trials in any interleaving",
  "inductive invariants over label lists"
 ],
 "C14": [
  "EngineModel.v: heap of nodes, any number of threads running trials in any interleaving",
  "inductive invariants over label lists"
 ],
 "C10": [
  "EngineModel.v: heap of nodes, any number of threads running trials in any interleaving",
  "counting invariants relating the event trace to visit counts and heap size"
 ],
 "C11": [
  "EngineModel.v: heap of nodes, any number of threads running trials in any interleaving",
  "counting invariants relating the event trace to visit counts and heap size"
 ],
 "C61": [
  "EngineModel.v: heap of nodes, any number of threads running trials in any interleaving",
  "potential function per thread; enabledness by case analysis; for backups with several looks the holder of a node's lock can always go on, so threads that wait for each other cannot form a cycle"
 ],
 "C62": [
  "ProductModel.v: pool and engine synchronised at start and end of trials",
  "simulation of both components, then C01/C02 and C10"
 ],
 "C15": [
  "TTModel.v: table, ids, hash, mutex vector, weak pointers, destruction of trees",
  "invariants over histories; refuted by witness histories"
 ],
 "C16": [
  "TTModel.v: table, ids, hash, mutex vector, weak pointers, destruction of trees",
  "invariants over histories; refuted by witness histories"
 ],
 "C17": [
  "LockModel.v: every lock and unlock of a trial, per algorithm, on any graph",
  "rank argument (locks are taken downwards); deadlock state exhibited for shared children"
 ],
 "C18": [
  "UctModel.v backups, history of returns per node (AlgoHist.v)",
  "induction over runs; algebra of running means"
 ],
 "C19": [
  "UctModel.v select_action",
  "characterisation of the set of possible results (picks), then invariants over runs"
 ],
 "C20": [
  "UctModel.v select_action",
  "characterisation of the set of possible results (picks), then invariants over runs"
 ],
 "C21": [
  "recommend_action of all algorithms",
  "characterisation of the set of possible results; value bounds by invariants over runs"
 ],
 "C22": [
  "UctModel.v bias and exploration terms",
  "real analysis"
 ],
 "C23": [
  "UctModel.v bias and exploration terms",
  "real analysis"
 ],
 "C24": [
  "HelperModel.v over an arbitrary ordered value type",
  "induction over the map; refutations by evaluation"
 ],
 "C25": [
  "HelperModel.v over an arbitrary ordered value type",
  "induction over the map; refutations by evaluation"
 ],
 "C60": [
  "HelperModel.v over an arbitrary ordered value type",
  "induction over the map; refutations by evaluation"
 ],
 "C26": [
  "HelperModel.v over numops (reals and binary64)",
  "induction over the map; refutations by evaluation in binary64"
 ],
 "C27": [
  "HelperModel.v over numops (reals and binary64)",
  "induction over the map; refutations by evaluation in binary64"
 ],
 "C28": [
  "HelperModel.v over numops (reals and binary64)",
  "induction over the map; refutations by evaluation in binary64"
 ],
 "C29": [
  "DistModel.v, alias table construction and sampling over numops",
  "loop invariant (mass conservation), measure; refutations by evaluation"
 ],
 "C30": [
  "DistModel.v, alias table construction and sampling over numops",
  "loop invariant (mass conservation), measure; refutations by evaluation"
 ],
 "C31": [
  "DistModel.v, alias table construction and sampling over numops",
  "loop invariant (mass conservation), measure; refutations by evaluation"
 ],
 "C32": [
  "DistModel.v, alias table construction and sampling over numops",
  "loop invariant (mass conservation), measure; refutations by evaluation"
 ],
 "C33": [
  "DistModel.v, alias table construction and sampling over numops",
  "loop invariant (mass conservation), measure; refutations by evaluation"
 ],
 "C34": [
  "DistModel.v",
  "counting of indices; induction over components"
 ],
 "C35": [
  "MentsModel.v weights, policy and sampling; also DB-MENTS, EST, DENTS",
  "log-sum-exp algebra; refutation by a witness node and draw"
 ],
 "C36": [
  "MentsModel.v weights, policy and sampling; also DB-MENTS, EST, DENTS",
  "log-sum-exp algebra; refutation by a witness node and draw"
 ],
 "C37": [
  "MentsModel.v weights, policy and sampling; also DB-MENTS, EST, DENTS",
  "log-sum-exp algebra; refutation by a witness node and draw"
 ],
 "C38": [
  "MentsModel.v chance and decision backups",
  "induction over the children; invariants over runs for the ranges"
 ],
 "C39": [
  "MentsModel.v chance and decision backups",
  "induction over the children; invariants over runs for the ranges"
 ],
 "C40": [
  "MentsModel.v in the engine, with the events of the trace",
  "invariant relating the counters of nodes to the events; refuted by a run"
 ],
 "C41": [
  "MentsModel.v pseudo Q-values",
  "algebra; refuted by witness priors"
 ],
 "C64": [
  "MentsModel.v pseudo Q-values",
  "algebra; refuted by witness priors"
 ],
 "C42": [
  "MentsModel.v decays and entropies",
  "real analysis (concavity of log)"
 ],
 "C43": [
  "MentsModel.v decays and entropies",
  "real analysis (concavity of log)"
 ],
 "C44": [
  "MentsModel.v TENTS maps, sparse set, weights, spmax",
  "projection on the simplex characterised; invariant of the two maps; stale entries exhibited in a run"
 ],
 "C45": [
  "MentsModel.v TENTS maps, sparse set, weights, spmax",
  "projection on the simplex characterised; invariant of the two maps; stale entries exhibited in a run"
 ],
 "C46": [
  "MentsModel.v contexts of RENTS and TENTS (AlgoTrail.v)",
  "invariant along each trial"
 ],
 "C47": [
  "EvalModel.v: threads, lock, sampled rollouts",
  "invariant over schedules; measure for termination"
 ],
 "C67": [
  "EvalModel.v: threads, lock, sampled rollouts",
  "invariant over schedules; measure for termination"
 ],
 "C48": [
  "EvalModel.v",
  "induction; refutations by evaluation"
 ],
 "C49": [
  "EvalModel.v",
  "induction; refutations by evaluation"
 ],
 "C50": [
  "EvalModel.v",
  "induction; refutations by evaluation"
 ],
 "C68": [
  "EvalModel.v",
  "induction; refutations by evaluation"
 ],
 "C51": [
  "LoggerModel.v: logger state machine with the pool's calls",
  "invariants over histories; refutations by histories"
 ],
 "C52": [
  "LoggerModel.v: logger state machine with the pool's calls",
  "invariants over histories; refutations by histories"
 ],
 "C66": [
  "LoggerModel.v: logger state machine with the pool's calls",
  "invariants over histories; refutations by histories"
 ],
 "C53": [
  "LoggerModel.v rows by value",
  "refuted: every stored row is a base row"
 ],
 "C54": [
  "ContextModel.v",
  "algebraic laws, induction over histories"
 ],
 "C55": [
  "TypesModel.v: class hierarchy with dynamic casts, equals, hash",
  "case analysis"
 ],
 "C56": [
  "NodeModel.v",
  "case analysis; induction over trees"
 ],
 "C57": [
  "NodeModel.v",
  "case analysis; induction over trees"
 ],
 "C58": [
  "EnvModel.v: default functions and the template",
  "case analysis; refutations by witness"
 ],
 "C69": [
  "EnvModel.v: default functions and the template",
  "case analysis; refutations by witness"
 ],
 "C70": [
  "EnvModel.v: default functions and the template",
  "case analysis; refutations by witness"
 ],
 "C59": [
  "UctModel.v, MentsModel.v and the engine on a problem and on the negated problem",
  "simulation: every step commutes with negation (record `mirrored`), then induction over runs"
 ],
 "C63": [
  "UctModel.v in the engine",
  "safety invariant (values bounded, children complete) over runs; completion by C61"
 ],
 "C65": [
  "MentsModel.v algorithms in the engine",
  "safety invariant over runs per algorithm (FamilyRun.v generic part); refuted for DENTS by a run"
 ],
 "C71": [
  "MentsModel.v algorithms in the engine",
  "safety invariant over runs per algorithm (FamilyRun.v generic part); refuted for DENTS by a run"
 ],
 "C75": [
  "MentsModel.v algorithms in the engine",
  "safety invariant over runs per algorithm (FamilyRun.v generic part); refuted for DENTS by a run"
 ],
 "C72": [
  "MentsModel.v EST and DENTS in the engine",
  "history invariant; bounds by invariant"
 ],
 "C73": [
  "MentsModel.v EST and DENTS in the engine",
  "history invariant; bounds by invariant"
 ],
 "C74": [
  "MentsModel.v algorithms in the engine (AlgoQuiet.v)",
  "invariant: every node nobody is about to back up agrees with its children"
 ],
 "C76": [
  "MentsModel.v RENTS",
  "algebra of the normalised weights"
 ],
 "C77": [
  "UctModel.v UCT and PUCT in the engine (ExploreSpec.v)",
  "invariant: an action selected often is only selected again when all others were tried; pigeonhole"
 ],
 "C78": [
  "MentsModel.v algorithms in the engine; plans over the store (TreeSpec.v)",
  "induction on the remaining depth from the equations of C74; the weights are those of C40"
 ],
 "C79": [
  "MentsModel.v algorithms in the engine; mixed plans over the store (TreeSpec.v)",
  "the same induction with the variational formulas of the log-sum-exp and the sparse maximum"
 ],
 "C80": [
  "the recommendation functions of MentsModel.v at reachable states",
  "first actions of optimal plans are the children that attain the node value; combined with C21 and C78"
 ],
 "C81": [
  "PrintModel.v: the printing functions as functions to strings; how doubles and pointers print is a parameter",
  "a reader for integers (PrintSpec.v), splitting at commas, induction on the loop"
 ],
 "C82": [
  "AccessModel.v: LockModel.v with the accesses to shared data as steps of their own; recommendations as sections a user runs at any time",
  "each access is followed by the release of the mutex that guards it (syntactic invariant), and LockProofs.v relates the next release to what a thread holds; schedules for the refutations"
 ],
 "C83": [
  "SerialModel.v: sections as programs with effects, interleaved at single operations, and the same sections run one at a time",
  "forward simulation: a section takes effect at its first look (the locks it holds keep other threads from what it reads and writes); a schedule with a section between two looks for the refutation"
 ],
 "C84": [
  "RoundModel.v: returns and averages of UCT over any arithmetic, with binary64 (SpecFloat) as one instance; selections and samples are arbitrary functions",
  "each binary64 operation is the exact one followed by a rounding (Flocq's theorems); induction on backups for the error of the running average; generic history lemma over backup arguments (ArgsHist.v) for searches"
 ],
 "C85": [
  "as C84",
  "one step avg + (r - avg)/n with n >= 2 rounds into the interval because rounding is monotone and (r - avg)/2 absorbs the rounding of the difference; induction on backups; sums of small integers are exact; a concrete search for the refutation"
 ],
 "C86": [
  "UctModel.v, EngineModel.v",
  "a concrete one-step search with heuristic value h of the last state has value h + 1; C18 with zero pseudo trials"
 ],
 "C87": [
  "LseModel.v over any arithmetic: real numbers or binary64 with arbitrary exp and log of bounded error",
  "the largest argument of exp is 0, so the sum is at least 1/4; errors of quotients, differences, exp, the summation, log and the final product are bounded one after the other and added up; induction on the children for the average"
 ],
 "C88": [
  "Ments64Model.v: MENTS over the engine with values in binary64 and arbitrary selections; LseModel.v",
  "invariant of single nodes: values are bounded by the depth below them (C87 for one backup); between trials every node holds the result of a backup from its children's present values, so the error is bounded by induction on the depth with log-sum-exp and means being 1-Lipschitz; exact values are those of optimal mixed plans (MixedProofs.v)"
 ],
 "C89": [
  "WorldSpec.v: the value functions of the environment (solves), explored trees and faithful samples; the algorithms of MentsModel.v at reachable states",
  "between trials every node holds the result of a backup from its children's present values (QuietResults.v, TreeResults.v, MixedResults.v); induction on the number of decisions left with the backup rules being 1-Lipschitz; every edge of the tree was walked (EngineMade.v); existence and uniqueness by backward induction"
 ],
 "C90": [
  "ReachSpec.v: routes of the environment, a generator whose draws to come are replaced, runs that continue a state; the algorithms of MentsModel.v",
  "a state reached with one stream of draws is reached with every stream that agrees so far (ReachProofs.v); the policy of a reachable node gives each action a positive share, so that some draw selects it, likewise outcomes; a trial follows a route to its first new node and then ends (ReachFollow.v); induction on routes and steps; visits by counting trials (EngineVisits.v)"
 ],
 "C91": [
  "ConvSpec.v: the values of an environment under best play, exploration terms that die out, fair sampling of outcomes; the UCT and PUCT nodes of UctModel.v on the engine",
  "every return of a parent is a reward plus a return of a child, up to trials under way (EngineLedger.v, ConvCount.v); so the deviation of a chance node from what its action is worth is that of its children plus a sampling error; an action that is not best is selected only if its term outweighs a fixed gap, hence a vanishing share of the time (ConvProofs.v); so the deviation of a decision node is that of its best children plus a vanishing share; induction on the decisions left (ConvMain.v)"
 ],
 "C92": [
  "Dp64Model.v: the dynamic programming members of DB-MENTS, DENTS and EST over the engine with values in binary64 and arbitrary selections; recommendation by them",
  "as C88: values are bounded by the depth below them in every state; between trials every node holds the result of a backup from its children's present values, and exact means and maxima are 1-Lipschitz, so the error grows by one chance node per level (Dp64Close.v); comparisons of doubles in range are those of their real values, so the recommended child is the best by computed value (Dp64Pick.v)"
 ],
 "C93": [
  "OddsSpec.v: shares of sequences of draws, generators made of them, schedulers as functions of the draws so far; the UCT and PUCT nodes of UctModel.v on the engine",
  "a step reads at most one draw, and what happened before does not depend on later ones (OddsStep.v, OddsReads.v); a non-negative quantity of the state that does not grow on average over the next draw exceeds 1/delta at any time for a share of at most delta of the sequences (Ville's inequality by induction on the draws, OddsVille.v); for each chance node and outcome the exponential of the deviation of its frequency, suitably compensated, is such a quantity (OddsAvg.v, OddsFair.v); the union over the nodes, whose number the environment bounds (OddsNodes.v), and over geometric accuracies gives a law of large numbers that is uniform in time (OddsLaw.v); then C91. Trials draw a bounded number of times (OddsDraws.v). Schedulers that complete any number of trials exist (OddsRuns.v)"
 ],
 "C94": [
  "EngineModel.v as it is; SizeSpec.v: choices, the ends of routes, geometric sums (routes are ReachSpec.v's)",
  "every node is led to by a route (an invariant of the engine), and a route leads to one node, so nodes can be counted by routes; with the table by state and depth (C14); without it distinct routes lead to distinct nodes (C14), so a whole tree has one node for each (SizeProofs.v)"
 ],
 "C95": [
  "MentsModel.v and the other nodes of the family on the engine; OddsBoldSpec.v: settings that keep trying every action; probability as in OddsSpec.v",
  "a visit of a node takes any given action with probability at least q/2 (OddsFamily.v: the draws that select it are an interval of its weight); a supermartingale bounds the probability that an action is left out for long (OddsTry.v, OddsOften.v: Ville's inequality of OddsVille.v); induction on the depth: all nodes are visited often enough (OddsGrow.v, OddsSpread.v); with the uniform law of large numbers of C93 the search is explored and faithful, which is what C89 needs (OddsBoldResults.v)"
 ],
 "C96": [
  "Dp64Model.v and Ments64Model.v (C92, C88) on the engine; WorldSpec.v: the values of the environment (C89)",
  "the exact values of the tree that C92 and C88 compare the doubles with satisfy the recursion that C89 compares with the environment (Dp64World.v, Ments64World.v); the two errors add up"
 ],
 "C97": [
  "MentsModel.v on the engine with use_tt (EngineModel.v:create_child_c); TableSpec.v counts steps in the trace, independently of the counters of nodes",
  "without table: the counters of children are the counted steps plus at most one, so C89 applies (TableFair.v). With table: an environment with two shared end states, one lemma per kind of trial (TableProofs.v), an invariant for the values (TableResults.v) and induction over rounds of eight trials"
 ],
 "C98": [
  "MentsModel.v on the engine with or without use_tt; SureSpec.v defines a round by the visits of chance nodes, WorldSpec.v the values of the environment",
  "induction over the rounds: after the k-th the values of all nodes at most k steps above the end are exact (SureProofs.v), kept by every step of the engine; SureResults.v instantiates it for dynamic programming and soft values"
 ],
 "C99": [
  "The engine and algorithm models count in Z; fits in BoundSpec.v is the range of int.",
  "Invariant on the trace: each trial adds at most one visit per depth (BoundProofs.v); backups of a node are bounded by its visits, counters grow by at most one per backup or leaf visit (BoundResults.v, via the history rules)."
 ],
 "C100": [
  "The steps of AlgoModel.v for any algorithm; a schedule is a list of labels, one_at_a_time in ReproSpec.v says that trials do not overlap.",
  "With one worker at most one label is possible in a state, so runs are prefixes of each other; workers that take turns are simulated by a single one (solo in ReproProofs.v). A concrete pair of schedules of MENTS refutes it for overlapping trials."
 ],
 "C101": [
  "UctModel.v, MentsModel.v and the engine on a problem and on the problem with another unit of reward (scl_conf, scl_uconf, scl_mconf in ScaleSpec.v)",
  "simulation as for C59: every step commutes with the scaling (record `scaled` in ScaleProofs.v, ScaleAlgos.v, ScaleUct.v), then induction over runs; for UCT only on reachable states, whose values are in range. A node with a prior refutes it."
 ],
 "C102": [
  "RcModel.v: objects with use counts, children maps, manager pointers and the weak table; shared_ptr's outside as a list; release with its nested destructor calls (a bounded stack, a double release is a crash)",
  "invariant: the use count of every object is the number of pointers outside plus those in existing objects (put_strong, release_ok by induction on the stack); pointers go from a level to the next or to a manager, so counts reach 0 exactly for what nobody needs (RcProofs.v)"
 ],
 "C103": [
  "Emp64Model.v: a description of the algorithms whose nodes keep the members of EmpNode (whatever else they do), over any arithmetic; returns added up in binary64 as in thts.cpp; recommend_action_best_emp_value_impl in binary64.",
  "The members of a node are a fold of the update over the rewards of its backups (ArgsHist.v); the error and range lemmas of C84 and C85 with one pseudo trial; comparison of doubles is comparison of the numbers they stand for (Dp64Pick.v)."
 ],
 "C104": [
  "DefaultModel.v: the argument structures of all managers with their default values, and the manager constructors that copy them into the settings a search reads.",
  "The defaults meet the premises of C63, C65, C71 and C75: with epsilon 0.5 the exploration share keeps the truncated policies positive for up to 10^14 actions and 2^31-1 visits, as ln(2^31+1) is at most 32. The recommendations are those of C21, whose bounds on values hold for rewards up to 2^900 and 2^31-1 steps."
 ],
 "C105": [
  "The model of RENTS in MentsModel.v; RentsSpec.v: the bound.",
  "Invariant of all nodes (AlgoNodes.v) as for MENTS (C35) with max(N, 10^16) in place of N: the sum of relative weights is between 10^-16 and N, or was replaced by one. The recommendation is that of C21, whose premise on values follows."
 ],
 "C106": [
  "The model of TENTS in MentsModel.v; TboundSpec.v: the bound.",
  "Invariant of all nodes (AlgoNodes.v): the stored values times the current temperature are within the bound, as temperatures never grow with visits (C42). The backup computes the sparse maximum (C44), a mean plus at most one half."
 ]
}