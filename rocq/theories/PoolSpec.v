(** Specification vocabulary for the thread pool, on traces (newest event first).
    Nothing here mentions the pool's fields. *)
From Coq Require Import List ZArith Bool.
From Verif Require Import Base PoolModel.
Import ListNotations.
Open Scope Z_scope.

(** Trials started since run_trials last took effect. *)
Fixpoint starts_since_run (tr : list event) : Z :=
  match tr with
  | [] => 0
  | EvRun _ _ _ :: _ => 0
  | EvStart _ :: t => 1 + starts_since_run t
  | _ :: t => starts_since_run t
  end.

(** Number of trials requested by the last run_trials (0 before the first). *)
Fixpoint budget (tr : list event) : Z :=
  match tr with
  | [] => 0
  | EvRun n _ _ :: _ => n
  | _ :: t => budget t
  end.

Fixpoint total_starts (tr : list event) : Z :=
  match tr with
  | [] => 0
  | EvStart _ :: t => 1 + total_starts t
  | _ :: t => total_starts t
  end.

Fixpoint total_ends (tr : list event) : Z :=
  match tr with
  | [] => 0
  | EvEnd _ :: t => 1 + total_ends t
  | _ :: t => total_ends t
  end.

(** Trials in progress. *)
Definition in_progress (tr : list event) : Z := total_starts tr - total_ends tr.

(** Current clock reading; [z0] is the reading when the pool was created. *)
Fixpoint clock (z0 : Z) (tr : list event) : Z :=
  match tr with
  | [] => z0
  | EvTick z :: _ => z
  | EvRun _ _ z :: _ => z
  | _ :: t => clock z0 t
  end.

(** Time at which the limit of the last run_trials is reached. *)
Fixpoint deadline (z0 : Z) (tr : list event) : Z :=
  match tr with
  | [] => z0
  | EvRun _ t z :: _ => z + t
  | _ :: t => deadline z0 t
  end.

(** The time limit of the last run has not been reached now. *)
Definition in_time (z0 : Z) (tr : list event) : Prop := clock z0 tr < deadline z0 tr.

(** run_trials has been called before. *)
Fixpoint has_run (tr : list event) : bool :=
  match tr with
  | [] => false
  | EvRun _ _ _ :: _ => true
  | _ :: t => has_run t
  end.

(** The time limit was never reached since run_trials last took effect. *)
Fixpoint never_timed_out (z0 : Z) (tr : list event) : Prop :=
  match tr with
  | [] => True
  | EvRun _ t _ :: _ => 0 < t
  | EvTick z :: t => never_timed_out z0 t /\ (has_run t = true -> z < deadline z0 t)
  | _ :: t => never_timed_out z0 t
  end.

(** No event of the given kind. *)
Definition no_run (tr : list event) : Prop := forall n t z, ~ In (EvRun n t z) tr.
Definition no_start (tr : list event) : Prop := forall i, ~ In (EvStart i) tr.

(** The clock never goes backwards during the events [tr2] that follow [tr1]. *)
Fixpoint monotone_clock (z0 : Z) (tr2 tr1 : list event) : Prop :=
  match tr2 with
  | [] => True
  | e :: t => monotone_clock z0 t tr1 /\ clock z0 (t ++ tr1) <= clock z0 (e :: t ++ tr1)
  end.

(** [reach n z0 tr s]: a pool with [n] workers created at time [z0] can reach state [s] having
    produced trace [tr], under some schedule. *)
Definition reach (n : nat) (z0 : Z) (tr : list event) (s : pool) : Prop :=
  exists ls, pool_exec [] (pool_init n z0) ls = Some (tr, s).

(** Continuing from a reached point. *)
Definition extends (tr : list event) (s : pool) (ls : list label) (tr' : list event) (s' : pool) : Prop :=
  pool_exec tr s ls = Some (tr', s').

(** A worker is executing a trial. *)
Definition in_trial (w : wpc) : Prop := w = WTrial.

(** Labels that are actions of the program itself (not the clock, not spurious wakeups,
    not new API calls). *)
Definition program_label (l : label) : bool :=
  match l with LWorker _ | LClient => true | _ => false end.
Definition spurious_label (l : label) : bool :=
  match l with LSpurW _ | LSpurC => true | _ => false end.
Definition call_label (l : label) : bool :=
  match l with LCall _ => true | _ => false end.

Definition count_labels (f : label -> bool) (ls : list label) : nat := length (filter f ls).

(** The program can make a step of its own. *)
Definition can_step (s : pool) : Prop :=
  exists l, program_label l = true /\ pool_step s l <> None.

(** The client is inside an API call. *)
Definition client_busy (s : pool) : Prop :=
  match cl s with CIdle | CDead => False | _ => True end.

(** Upper bound for the work a single API call can cause in a pool with [n] workers. *)
Definition call_cost (n : Z) (l : label) : Z :=
  match l with
  | LCall (CallRun k _ _) => (3 * n + 7) * Z.max 0 k + 3 * n + 5
  | LCall _ => 3 * n + 5
  | _ => 0
  end.
