(** Model of the thread pool [ThtsPool] (src/thts.cpp, include/thts.h).

    A labelled transition system: [n] worker threads running [worker_fn], one client thread that
    calls the public API, one mutex ([work_left_lock]), one condition variable ([work_left_cv])
    and the system clock. One label is one atomic action of one thread.

    Simplifications:
    - the body of a trial ([run_thts_trial]) is one long "step": a worker is in [WTrial] from the
      moment it releases the mutex to the moment the trial is over (the trial itself is modelled
      in EngineModel.v, and the two are combined in ProductModel.v);
    - one client thread (concurrent API calls from several threads are not modelled);
    - the logger calls in run_trials and try_log are modelled separately (LoggerModel.v);
    - durations and time points are integers (any unit); the clock may jump arbitrarily, because
      [std::chrono::system_clock] is not monotone;
    - C++ [int] counters are [Z]; overflow is not modelled. *)
From Coq Require Import List ZArith Bool.
From Verif Require Import Base.
Import ListNotations.
Open Scope Z_scope.

(** Program counter of a worker; src/thts.cpp:302-323. *)
Inductive wpc : Type :=
| WStart      (* 303: has not yet acquired the mutex *)
| WLoop       (* 304: about to test thread_pool_alive, holds the mutex *)
| WCheck1     (* 307: num_threads_working has been decremented, about to call work_left, holds the mutex *)
| WCheck2     (* 310: about to evaluate the inner loop condition, holds the mutex *)
| WWait       (* 311: blocked in wait, mutex released *)
| WWoken      (* 311: woken up, must re-acquire the mutex *)
| WAfterWait  (* 312: about to test thread_pool_alive, holds the mutex *)
| WTrial      (* 319-320: running a trial, mutex released *)
| WRelock     (* 321: trial over, must re-acquire the mutex *)
| WExit (top : bool). (* returned from worker_fn: [true] from the outer loop test, [false] from line 312 *)

(** Program counter of the client thread. *)
Inductive cpc : Type :=
| CIdle                                        (* between API calls *)
| CRunAcq (n t : Z) (blocking : bool)          (* run_trials 362: about to lock *)
| CRunSet (n t : Z) (blocking : bool)          (* run_trials 363-367: holds the mutex *)
| CNotify (blocking : bool)                    (* run_trials 369: notify_all, mutex not held *)
| CJoinAcq                                     (* join 329 *)
| CJoinCheck                                   (* join 330, holds the mutex *)
| CJoinWait                                    (* join 331, blocked *)
| CJoinWoken                                   (* join 331, woken, must re-acquire *)
| CDtorAcq                                     (* ~ThtsPool 64 *)
| CDtorSet                                     (* ~ThtsPool 65-67, holds the mutex *)
| CDtorJoin                                    (* ~ThtsPool 68-70 *)
| CDead.                                       (* pool destroyed *)

Inductive tid : Type := TWorker (i : nat) | TClient.

(** Fields of ThtsPool used by the protocol; include/thts.h and constructor src/thts.cpp:25-45. *)
Record pool : Type := mkPool {
  alive : bool;          (* thread_pool_alive *)
  working : Z;           (* num_threads_working *)
  remaining : Z;         (* trials_remaining *)
  ntrials : Z;           (* num_trials *)
  start : Z;             (* start_time *)
  maxt : Z;              (* max_run_time *)
  now : Z;               (* value the next system_clock::now() returns *)
  lock : option tid;     (* owner of work_left_lock *)
  ws : list wpc;         (* workers *)
  cl : cpc               (* client thread *)
}.

(** API calls of the client. *)
Inductive call : Type :=
| CallRun (n t : Z) (blocking : bool)   (* run_trials(max_trials, max_time, blocking) *)
| CallJoin                              (* join() *)
| CallSetEnv                            (* set_new_env(...) *)
| CallDtor.                             (* ~ThtsPool() *)

Inductive label : Type :=
| LWorker (i : nat)      (* worker i performs its next action *)
| LClient                (* the client performs its next action *)
| LCall (c : call)       (* the client, idle, enters an API call *)
| LSpurW (i : nat)       (* spurious wakeup of worker i *)
| LSpurC                 (* spurious wakeup of the client *)
| LTick (z : Z).         (* the clock now shows z *)

(** Observable events. *)
Inductive event : Type :=
| EvStart (i : nat)            (* worker i starts a trial *)
| EvEnd (i : nat)              (* worker i finishes its trial *)
| EvRun (n t z : Z)            (* run_trials(n,t) took effect at clock time z *)
| EvTick (z : Z)               (* the clock shows z *)
| EvJoinRet                    (* join (or blocking run_trials) returned *)
| EvSetEnvOk                   (* set_new_env replaced manager, root and logger *)
| EvSetEnvThrow                (* set_new_env threw *)
| EvDtor                       (* the destructor has set thread_pool_alive to false *)
| EvDtorRet                    (* the destructor returned *)
| EvNone.                      (* nothing observable *)

(** [work_left], src/thts.cpp:231-239. *)
Definition work_left (s : pool) : bool :=
  if remaining s <=? 0 then false
  else if maxt s <=? now s - start s then false
  else true.

(** Constructor, src/thts.cpp:25-52 (manager and root non-null); [z] is the clock. *)
Definition pool_init (nthreads : nat) (z : Z) : pool :=
  mkPool true (Z.of_nat nthreads) 0 0 z 0 z None (repeat WStart nthreads) CIdle.

(** condition_variable::notify_all on work_left_cv. *)
Definition wake_w (w : wpc) : wpc := match w with WWait => WWoken | _ => w end.
Definition wake_c (c : cpc) : cpc := match c with CJoinWait => CJoinWoken | _ => c end.
Definition notify_all (s : pool) : pool :=
  mkPool (alive s) (working s) (remaining s) (ntrials s) (start s) (maxt s) (now s) (lock s)
         (map wake_w (ws s)) (wake_c (cl s)).

Definition set_ws (s : pool) (w : list wpc) : pool :=
  mkPool (alive s) (working s) (remaining s) (ntrials s) (start s) (maxt s) (now s) (lock s) w (cl s).
Definition set_cl (s : pool) (c : cpc) : pool :=
  mkPool (alive s) (working s) (remaining s) (ntrials s) (start s) (maxt s) (now s) (lock s) (ws s) c.
Definition set_lock (s : pool) (o : option tid) : pool :=
  mkPool (alive s) (working s) (remaining s) (ntrials s) (start s) (maxt s) (now s) o (ws s) (cl s).
Definition set_working (s : pool) (z : Z) : pool :=
  mkPool (alive s) z (remaining s) (ntrials s) (start s) (maxt s) (now s) (lock s) (ws s) (cl s).
Definition set_remaining (s : pool) (z : Z) : pool :=
  mkPool (alive s) (working s) z (ntrials s) (start s) (maxt s) (now s) (lock s) (ws s) (cl s).
Definition set_alive (s : pool) (b : bool) : pool :=
  mkPool b (working s) (remaining s) (ntrials s) (start s) (maxt s) (now s) (lock s) (ws s) (cl s).
Definition set_now (s : pool) (z : Z) : pool :=
  mkPool (alive s) (working s) (remaining s) (ntrials s) (start s) (maxt s) z (lock s) (ws s) (cl s).

(** Moves worker [i] to [w]. *)
Definition goto (s : pool) (i : nat) (w : wpc) : pool := set_ws s (upd (ws s) i w).

(** One action of worker [i] at program counter [w]; worker_fn, src/thts.cpp:302-323. *)
Definition worker_step (s : pool) (i : nat) (w : wpc) : option (event * pool) :=
  match w with
  | WStart =>                                       (* 303 lock_guard *)
      match lock s with
      | None => Some (EvNone, goto (set_lock s (Some (TWorker i))) i WLoop)
      | Some _ => None
      end
  | WLoop =>                                        (* 304-305 *)
      if alive s
      then Some (EvNone, goto (set_working s (working s - 1)) i WCheck1)
      else Some (EvNone, goto (set_lock s None) i (WExit true))
  | WCheck1 =>                                      (* 307-309 *)
      if work_left s
      then Some (EvNone, goto s i WCheck2)
      else Some (EvNone, goto (notify_all s) i WCheck2)
  | WCheck2 =>                                      (* 310-311 and 315-319 *)
      if work_left s
      then Some (EvStart i,
                 goto (set_lock (set_remaining (set_working s (working s + 1)) (remaining s - 1)) None)
                      i WTrial)
      else Some (EvNone, goto (set_lock s None) i WWait)
  | WWait => None
  | WWoken =>                                       (* 311 wait re-acquires *)
      match lock s with
      | None => Some (EvNone, goto (set_lock s (Some (TWorker i))) i WAfterWait)
      | Some _ => None
      end
  | WAfterWait =>                                   (* 312 *)
      if alive s then Some (EvNone, goto s i WCheck2)
      else Some (EvNone, goto (set_lock s None) i (WExit false))
  | WTrial => Some (EvEnd i, goto s i WRelock)      (* 320 *)
  | WRelock =>                                      (* 321 *)
      match lock s with
      | None => Some (EvNone, goto (set_lock s (Some (TWorker i))) i WLoop)
      | Some _ => None
      end
  | WExit _ => None
  end.

Definition is_exit (w : wpc) : bool := match w with WExit _ => true | _ => false end.

(** One action of the client; run_trials 353-371, join 328-333, ~ThtsPool 63-71. *)
Definition client_step (s : pool) : option (event * pool) :=
  match cl s with
  | CIdle => None
  | CRunAcq n t b =>                                (* 362 *)
      match lock s with
      | None => Some (EvNone, set_cl (set_lock s (Some TClient)) (CRunSet n t b))
      | Some _ => None
      end
  | CRunSet n t b =>                                (* 363-367 *)
      Some (EvRun n t (now s),
            mkPool (alive s) (working s) n n (now s) t (now s) None (ws s) (CNotify b))
  | CNotify b =>                                    (* 369-370 *)
      Some (EvNone, set_cl (notify_all s) (if b then CJoinAcq else CIdle))
  | CJoinAcq =>                                     (* 329 *)
      match lock s with
      | None => Some (EvNone, set_cl (set_lock s (Some TClient)) CJoinCheck)
      | Some _ => None
      end
  | CJoinCheck =>                                   (* 330-332 *)
      if work_left s || (0 <? working s)
      then Some (EvNone, set_cl (set_lock s None) CJoinWait)
      else Some (EvJoinRet, set_cl (set_lock s None) CIdle)
  | CJoinWait => None
  | CJoinWoken =>                                   (* 331 wait re-acquires *)
      match lock s with
      | None => Some (EvNone, set_cl (set_lock s (Some TClient)) CJoinCheck)
      | Some _ => None
      end
  | CDtorAcq =>                                     (* 64 *)
      match lock s with
      | None => Some (EvNone, set_cl (set_lock s (Some TClient)) CDtorSet)
      | Some _ => None
      end
  | CDtorSet =>                                     (* 65-67 *)
      Some (EvDtor, set_cl (set_lock (notify_all (set_alive s false)) None) CDtorJoin)
  | CDtorJoin =>                                    (* 68-70: every worker must have returned *)
      if forallb is_exit (ws s) then Some (EvDtorRet, set_cl s CDead) else None
  | CDead => None
  end.

(** Entering an API call; the client must be idle. set_new_env (76-87) calls work_left without
    taking the mutex and either throws or replaces manager, root and logger. *)
Definition call_step (s : pool) (c : call) : option (event * pool) :=
  match cl s with
  | CIdle =>
      match c with
      | CallRun n t b => Some (EvNone, set_cl s (CRunAcq n t b))
      | CallJoin => Some (EvNone, set_cl s CJoinAcq)
      | CallSetEnv => Some (if work_left s then EvSetEnvThrow else EvSetEnvOk, s)
      | CallDtor => Some (EvNone, set_cl s CDtorAcq)
      end
  | _ => None
  end.

(** The transition function: [None] when the label is not enabled. *)
Definition pool_step (s : pool) (l : label) : option (event * pool) :=
  match l with
  | LWorker i =>
      match nth_error (ws s) i with
      | Some w => worker_step s i w
      | None => None
      end
  | LClient => client_step s
  | LCall c => call_step s c
  | LSpurW i =>
      match nth_error (ws s) i with
      | Some WWait => Some (EvNone, goto s i WWoken)
      | _ => None
      end
  | LSpurC =>
      match cl s with
      | CJoinWait => Some (EvNone, set_cl s CJoinWoken)
      | _ => None
      end
  | LTick z => Some (EvTick z, set_now s z)
  end.

(** [pool_exec s ls] runs the labels in order; the result carries the trace, newest event first. *)
Fixpoint pool_exec (tr : list event) (s : pool) (ls : list label) : option (list event * pool) :=
  match ls with
  | [] => Some (tr, s)
  | l :: rest =>
      match pool_step s l with
      | Some (e, s') => pool_exec (e :: tr) s' rest
      | None => None
      end
  end.
