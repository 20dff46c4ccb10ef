(** Property theorems about the thread pool: C01-C07. *)
From Coq Require Import List ZArith Lia Bool.
From Verif Require Import Base BaseProofs PoolModel PoolSpec PoolProofs PoolLive PoolWitness.
Import ListNotations.
Open Scope Z_scope.

(** ** C01 *)
(** At every instant, under every schedule, at most max(n,0) trials have been started since
    run_trials(n,_) took effect. *)
Theorem C01_never_exceeds_budget : forall n z0 tr s,
  reach n z0 tr s -> starts_since_run tr <= Z.max 0 (budget tr).
Proof. exact budget_bound. Qed.
Print Assumptions C01_never_exceeds_budget.

(** When join returns before the time limit, exactly max(n,0) trials were started and every trial
    ever started has finished. *)
Theorem C01_join_exact : forall n z0 tr s,
  reach n z0 (EvJoinRet :: tr) s -> in_time z0 tr ->
  starts_since_run tr = Z.max 0 (budget tr) /\ total_starts tr = total_ends tr.
Proof. exact join_exact_full. Qed.
Print Assumptions C01_join_exact.

Example C01_witness : exists tr s,
  reach 2 0 (EvJoinRet :: tr) s /\ in_time 0 tr /\ budget tr = 3 /\ total_ends tr = 3.
Proof. exact w_run3. Qed.

(** ** C02 *)
Theorem C02_join_quiescent : forall n z0 tr s,
  reach n z0 (EvJoinRet :: tr) s ->
  in_progress tr = 0 /\ (forall i w, nth_error (ws s) i = Some w -> ~ in_trial w).
Proof. exact join_quiescent. Qed.
Print Assumptions C02_join_quiescent.

(** Nothing starts after join until the next run_trials, as long as the clock is monotone. *)
Theorem C02_none_after_join : forall n z0 tr2 tr1 s,
  reach n z0 (tr2 ++ EvJoinRet :: tr1) s -> no_run tr2 ->
  monotone_clock z0 tr2 (EvJoinRet :: tr1) -> no_start tr2.
Proof. exact after_join_no_start. Qed.
Print Assumptions C02_none_after_join.

(** Without the monotone-clock hypothesis the claim is false: the pool uses system_clock, which can
    be set back, and after a run that timed out a worker can start another trial. *)
Theorem C02_clock_set_back_refuted : exists n z0 tr2 tr1 s,
  reach n z0 (tr2 ++ EvJoinRet :: tr1) s /\ no_run tr2 /\ ~ no_start tr2.
Proof. exact w_clock_back. Qed.
Print Assumptions C02_clock_set_back_refuted.

Example C02_witness : exists tr2 tr1 s,
  reach 2 0 (tr2 ++ EvJoinRet :: tr1) s /\ no_run tr2 /\ monotone_clock 0 tr2 (EvJoinRet :: tr1) /\
  tr2 <> [] /\ total_ends tr1 = 3.
Proof. exact w_after_join. Qed.

(** ** C03 *)
(** As long as the time limit has not been reached, an API call in progress is never stuck. *)
Theorem C03_progress : forall n z0 tr s,
  (0 < n)%nat -> reach n z0 tr s -> never_timed_out z0 tr -> client_busy s -> can_step s.
Proof. exact progress_in_time. Qed.
Print Assumptions C03_progress.

(** Every execution is finite: the number of program steps is bounded by an explicit function of
    the number of threads, the API calls made and the number of spurious wakeups. *)
Theorem C03_steps_bounded : forall n z0 ls tr s,
  pool_exec [] (pool_init n z0) ls = Some (tr, s) ->
  let m := Z.of_nat n in
  Z.of_nat (count_labels program_label ls)
  <= m * (3 * m + 6) + 3 * Z.of_nat (count_labels spurious_label ls) + sumZ (call_cost m) ls.
Proof. exact steps_bounded. Qed.
Print Assumptions C03_steps_bounded.

(** Together: from any reachable state, every continuation without further API calls in which the
    time limit is not reached has boundedly many program steps, and one that cannot be continued
    has returned to the caller. *)
Theorem C03_call_returns : forall n z0 tr s,
  (0 < n)%nat -> reach n z0 tr s ->
  exists b, forall ls tr' s', extends tr s ls tr' s' ->
    (forall l, In l ls -> call_label l = false) -> never_timed_out z0 tr' ->
    Z.of_nat (count_labels program_label ls) <= b + 3 * Z.of_nat (count_labels spurious_label ls) /\
    (~ can_step s' -> ~ client_busy s').
Proof. exact call_returns. Qed.
Print Assumptions C03_call_returns.

(** The hypothesis 0 < n is needed: a pool with no threads hangs in run_trials. *)
Theorem C03_zero_threads_refuted : exists tr s,
  reach 0 0 tr s /\ never_timed_out 0 tr /\ client_busy s /\ ~ can_step s.
Proof. exact w_zero_threads. Qed.
Print Assumptions C03_zero_threads_refuted.

Example C03_witness : exists tr s,
  reach 2 0 tr s /\ never_timed_out 0 tr /\ client_busy s /\ budget tr = 3 /\ in_progress tr = 2.
Proof. exact w_busy. Qed.

(** ** C04 *)
(** The claim is false: there is a schedule (one worker; run_trials(1, 5 time units, blocking))
    after which the time limit has passed, no trial is in progress, and in every continuation
    without spurious wakeups, whatever the clock does, the call never returns. *)
Theorem C04_refuted : exists tr s,
  reach 1 0 tr s /\ deadline 0 tr <= clock 0 tr /\ in_progress tr = 0 /\ client_busy s /\
  forall ls tr' s', extends tr s ls tr' s' -> (forall l, In l ls -> spurious_label l = false) ->
    client_busy s' /\ ~ can_step s'.
Proof. exact w_timeout_hang. Qed.
Print Assumptions C04_refuted.

(** A second schedule with the same effect: after completing trials, a worker finds time left at
    line 307 and none at line 310. *)
Theorem C04_refuted_between_checks : exists tr s,
  reach 1 0 tr s /\ deadline 0 tr <= clock 0 tr /\ total_ends tr = 1 /\ in_progress tr = 0 /\ client_busy s /\
  forall ls tr' s', extends tr s ls tr' s' -> (forall l, In l ls -> spurious_label l = false) ->
    client_busy s' /\ ~ can_step s'.
Proof. exact w_timeout_hang2. Qed.
Print Assumptions C04_refuted_between_checks.

(** What does hold (missing compared to the full claim: the case in which no trial is in progress
    when the limit passes): if some trial is in progress when the limit has passed and the caller
    is waiting, then, the clock being monotone, the caller is never stuck, so with
    [C03_steps_bounded] the call returns. *)
Theorem C04_partial : forall n z0 tr s ls tr2 s',
  reach n z0 tr s -> deadline z0 tr <= clock z0 tr -> 0 < in_progress tr ->
  cl s = CJoinWait ->
  extends tr s ls (tr2 ++ tr) s' -> (forall l, In l ls -> call_label l = false) ->
  monotone_clock z0 tr2 tr ->
  client_busy s' -> can_step s'.
Proof. exact late_progress. Qed.
Print Assumptions C04_partial.

Example C04_witness : exists tr s,
  reach 1 0 tr s /\ deadline 0 tr <= clock 0 tr /\ 0 < in_progress tr /\ cl s = CJoinWait.
Proof. exact w_late. Qed.

(** ** C05 *)
Theorem C05_no_start_after_destructor : forall n z0 tr2 tr1 s,
  reach n z0 (tr2 ++ EvDtor :: tr1) s -> no_start tr2.
Proof. exact dtor_no_start. Qed.
Print Assumptions C05_no_start_after_destructor.

Theorem C05_destructor_progress : forall n z0 tr s,
  reach n z0 tr s -> In EvDtor tr -> client_busy s -> can_step s.
Proof. exact in_dtor_progress. Qed.
Print Assumptions C05_destructor_progress.

(** The destructor returns: boundedly many program steps from any state, whatever the clock does
    and whether or not trials remain; a continuation that cannot go on has returned. *)
Theorem C05_destructor_returns : forall n z0 tr s,
  reach n z0 tr s -> In EvDtor tr ->
  exists b, forall ls tr' s', extends tr s ls tr' s' ->
    Z.of_nat (count_labels program_label ls) <= b + 3 * Z.of_nat (count_labels spurious_label ls) /\
    (~ can_step s' -> ~ client_busy s').
Proof. exact dtor_returns. Qed.
Print Assumptions C05_destructor_returns.

(** Once it has returned, every worker has returned and no trial is in progress. *)
Theorem C05_all_exited : forall n z0 tr s,
  reach n z0 (EvDtorRet :: tr) s ->
  (forall i w, nth_error (ws s) i = Some w -> is_exit w = true) /\ in_progress tr = 0.
Proof. exact dtor_ret_all_exit. Qed.
Print Assumptions C05_all_exited.

Example C05_witness : exists tr s,
  reach 2 0 (EvDtorRet :: tr) s /\ budget tr = 5 /\ total_ends tr = 1.
Proof. exact w_dtor. Qed.

(** ** C06 *)
(** The claim is false: set_new_env can replace the root while a trial is in progress. *)
Theorem C06_refuted : exists tr s, reach 1 0 (EvSetEnvOk :: tr) s /\ in_progress tr = 1.
Proof. exact w_setenv. Qed.
Print Assumptions C06_refuted.

(** What it checks is whether trials are still to be started in time. *)
Theorem C06_throws_iff : forall n z0 e tr s,
  reach n z0 (e :: tr) s -> e = EvSetEnvOk \/ e = EvSetEnvThrow ->
  (e = EvSetEnvThrow <-> starts_since_run tr < budget tr /\ in_time z0 tr).
Proof. exact setenv_throws_iff. Qed.
Print Assumptions C06_throws_iff.

(** Called after join and before the next run it is safe. *)
Theorem C06_partial : forall n z0 tr2 tr1 s,
  reach n z0 (EvSetEnvOk :: tr2 ++ EvJoinRet :: tr1) s -> no_run tr2 ->
  monotone_clock z0 tr2 (EvJoinRet :: tr1) ->
  in_progress (tr2 ++ EvJoinRet :: tr1) = 0.
Proof. exact setenv_after_join. Qed.
Print Assumptions C06_partial.

Example C06_witness : exists tr2 tr1 s,
  reach 1 0 (EvSetEnvOk :: tr2 ++ EvJoinRet :: tr1) s /\ no_run tr2 /\
  monotone_clock 0 tr2 (EvJoinRet :: tr1) /\ total_starts tr1 = 2.
Proof. exact w_setenv_ok. Qed.

Example C06_witness_throw : exists tr s, reach 1 0 (EvSetEnvThrow :: tr) s.
Proof. exact w_setenv_throw. Qed.

(** ** C07 *)
(** remaining + started = max_trials; trials in progress = workers inside a trial, at most the
    number of threads; num_threads_working counts exactly the workers outside the waiting loop. *)
Theorem C07_bookkeeping : forall n z0 tr s,
  reach n z0 tr s ->
  remaining s + starts_since_run tr = budget tr /\
  in_progress tr = Z.of_nat (length (filter (fun w => match w with WTrial => true | _ => false end) (ws s))) /\
  0 <= in_progress tr <= Z.of_nat n /\
  (alive s = true -> working s = Z.of_nat (length (filter
     (fun w => match w with WStart | WLoop | WTrial | WRelock => true | _ => false end) (ws s)))).
Proof. exact bookkeeping_full. Qed.
Print Assumptions C07_bookkeeping.

Example C07_witness : exists tr s, reach 2 0 tr s /\ in_progress tr = 2 /\ remaining s = 1.
Proof. exact w_bookkeeping. Qed.
