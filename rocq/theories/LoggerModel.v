(** Model of src/thts_logger.cpp, the logging done by ThtsPool (src/thts.cpp: try_log, run_trials) and the entry types
    of src/algorithms/uct/uct_logger.cpp and src/algorithms/ments/{ments,dbments}_logger.cpp.

    Times and durations are real numbers (seconds); every reading of the clock is an argument. Counters of type int are
    integers without bound. The operations of ThtsPool hold logging_lock throughout, so an execution is a sequence of
    them. num_trials is written by run_trials under another lock; run_trials is modelled as one step, as when it is
    called while the pool is idle. *)
From Coq Require Import List ZArith Bool Reals.
From Verif Require Import Base NumOps.
Import ListNotations.
Open Scope R_scope.

(** ** ThtsLogger *)

(** LoggerEntry, include/thts_logger.h:22-26 and src/thts_logger.cpp:9-10. *)
Record entry : Type := mkEntry { runtime : R; num_visits : Z }.

(** Members of ThtsLogger, include/thts_logger.h:71-83. *)
Record logger : Type := mkLog {
  entries : list entry;
  prior_runtime : R;
  lstart : R;                     (* start_time *)
  lcompleted : Z;                 (* trials_completed *)
  trials_delta : Z;
  last_log : Z;                   (* last_log_num_trials *)
  runtime_delta : R;
  next_threshold : R              (* next_log_runtime_threshold *)
}.

Definition int_max : Z := 2 ^ 31 - 1.
Definition dbl_max : R := IZR ((2 ^ 53 - 1) * 2 ^ 971).

(** Constructor, src/thts_logger.cpp:28-31. It leaves trials_completed, last_log_num_trials, start_time and
    next_log_runtime_threshold uninitialised: they hold arbitrary values [tc], [last], [st] and [nx]. *)
Definition new_logger (tc last : Z) (st nx : R) : logger := mkLog [] 0 st tc int_max last dbl_max nx.
(** set_trials_delta, src/thts_logger.cpp:33-35. *)
Definition set_trials_delta (l : logger) (d : Z) : logger :=
  mkLog (entries l) (prior_runtime l) (lstart l) (lcompleted l) d (last_log l) (runtime_delta l) (next_threshold l).
(** set_runtime_delta, src/thts_logger.cpp:37-39. *)
Definition set_runtime_delta (l : logger) (d : R) : logger :=
  mkLog (entries l) (prior_runtime l) (lstart l) (lcompleted l) (trials_delta l) (last_log l) d (next_threshold l).
(** size, src/thts_logger.cpp:41-43. *)
Definition size (l : logger) : Z := Z.of_nat (length (entries l)).
(** entries.push_back. *)
Definition push (l : logger) (e : entry) : logger :=
  mkLog (entries l ++ [e]) (prior_runtime l) (lstart l) (lcompleted l) (trials_delta l) (last_log l) (runtime_delta l) (next_threshold l).
(** add_origin_entry, src/thts_logger.cpp:45-49. *)
Definition add_origin_entry (l : logger) : logger := push l (mkEntry 0 0).
(** reset_start_time, src/thts_logger.cpp:51-55. *)
Definition reset_start_time (l : logger) (now : R) : logger :=
  mkLog (entries l) (prior_runtime l) now (lcompleted l) (trials_delta l) 0 (runtime_delta l) (runtime_delta l).
(** get_current_total_runtime, src/thts_logger.cpp:57-60. *)
Definition total_runtime (l : logger) (now : R) : R := prior_runtime l + (now - lstart l).
(** trial_completed, src/thts_logger.cpp:62-64. *)
Definition trial_completed (l : logger) : logger :=
  mkLog (entries l) (prior_runtime l) (lstart l) (lcompleted l + 1) (trials_delta l) (last_log l) (runtime_delta l) (next_threshold l).
(** should_log, src/thts_logger.cpp:66-77. *)
Definition should_log (l : logger) (now : R) : bool * logger :=
  let '(r1, l1) := if (last_log l + trials_delta l <=? lcompleted l)%Z
                   then (true, mkLog (entries l) (prior_runtime l) (lstart l) (lcompleted l) (trials_delta l) (lcompleted l)
                                     (runtime_delta l) (next_threshold l))
                   else (false, l) in
  if Rleb (next_threshold l1) (total_runtime l1 now)
  then (true, mkLog (entries l1) (prior_runtime l1) (lstart l1) (lcompleted l1) (trials_delta l1) (last_log l1)
                    (runtime_delta l1) (next_threshold l1 + runtime_delta l1))
  else (r1, l1).
(** log, src/thts_logger.cpp:79-83, with the visits of the node. *)
Definition log_node (l : logger) (now : R) (visits : Z) : logger := push l (mkEntry (total_runtime l now) visits).
(** update_prior_runtime, src/thts_logger.cpp:85-88. *)
Definition update_prior_runtime (l : logger) (now : R) : logger :=
  mkLog (entries l) (prior_runtime l + (now - lstart l)) (lstart l) (lcompleted l) (trials_delta l) (last_log l)
        (runtime_delta l) (next_threshold l).

(** ** Logging by ThtsPool *)

(** The members logger, trials_completed and num_trials, src/thts.cpp:25-52. *)
Record plog : Type := mkP { lg : logger; pcompleted : Z; pnum : Z }.
Definition new_plog (l : logger) : plog := mkP l 0 0.

Inductive lop :=
| LRun (n : Z) (now : R)                    (* run_trials(n, ...) *)
| LTrial (t1 t2 t3 : R) (visits : Z).       (* try_log at the end of a trial: readings of the clock in should_log, log
                                               and update_prior_runtime, and the visits of the root *)

(** run_trials, src/thts.cpp:354-363. *)
Definition log_run (p : plog) (n : Z) (now : R) : plog :=
  let l := if (size (lg p) =? 0)%Z then add_origin_entry (lg p) else lg p in
  mkP (reset_start_time l now) (pcompleted p) n.
(** try_log, src/thts.cpp:266-281. *)
Definition try_log (p : plog) (t1 t2 t3 : R) (visits : Z) : plog :=
  let c := (pcompleted p + 1)%Z in
  let l := trial_completed (lg p) in
  let '(r, l) := should_log l t1 in
  let l := if r then log_node l t2 visits else l in
  let l := if (c =? pnum p)%Z then update_prior_runtime l t3 else l in
  mkP l c (pnum p).
Definition lstep (p : plog) (o : lop) : plog :=
  match o with
  | LRun n now => log_run p n now
  | LTrial t1 t2 t3 v => try_log p t1 t2 t3 v
  end.
Definition lrun (p : plog) (os : list lop) : plog := fold_left lstep os p.

(** ** Entries of derived types *)

(** Columns of a written entry. *)
Inductive col := CRuntime (r : R) | CVisits (v : Z) | CBackups (b : Z) | CValue (v : R) | CDpValue (v : R).
Inductive head := HRuntime | HVisits | HBackups | HValue | HDpValue.

(** An entry object of a given dynamic type: LoggerEntry, UctLoggerEntry / MentsLoggerEntry (num_backups and
    avg_return / soft_value, uct_logger.cpp:9-11, ments_logger.cpp:9-11) or DBMentsLoggerEntry (also dp_value,
    dbments_logger.cpp:9-12). *)
Inductive object :=
| OBase (e : entry)
| OValue (e : entry) (backups : Z) (value : R)
| ODp (e : entry) (backups : Z) (value dp : R).
Definition object_base (o : object) : entry := match o with OBase e | OValue e _ _ | ODp e _ _ _ => e end.

(** Virtual write_header_to_ostream: thts_logger.cpp:12-15, uct_logger.cpp:13-18, ments_logger.cpp:13-18,
    dbments_logger.cpp:14-20. *)
Definition header (o : object) : list head :=
  match o with
  | OBase _ => [HRuntime; HVisits]
  | OValue _ _ _ => [HRuntime; HVisits; HBackups; HValue]
  | ODp _ _ _ _ => [HRuntime; HVisits; HBackups; HValue; HDpValue]
  end.
(** Virtual write_to_ostream of an entry: thts_logger.cpp:17-20, uct_logger.cpp:20-25, ments_logger.cpp:20-25,
    dbments_logger.cpp:22-28. *)
Definition columns (o : object) : list col :=
  match o with
  | OBase e => [CRuntime (runtime e); CVisits (num_visits e)]
  | OValue e b v => [CRuntime (runtime e); CVisits (num_visits e); CBackups b; CValue v]
  | ODp e b v d => [CRuntime (runtime e); CVisits (num_visits e); CBackups b; CValue v; CDpValue d]
  end.
(** entries is a vector<LoggerEntry> (include/thts_logger.h:73), so push_back of a derived entry copies the base part
    only. *)
Definition stored (o : object) : object := OBase (object_base o).
(** write_to_ostream, thts_logger.cpp:90-103: header of the first entry, then all entries. *)
Definition write (l : list object) : option (list head * list (list col)) :=
  match l with
  | [] => None
  | o :: _ => Some (header o, map columns l)
  end.
(** A logger on which these entries were pushed, written. *)
Definition written (pushed : list object) : option (list head * list (list col)) := write (map stored pushed).
