(** Specification vocabulary for logging. *)
From Coq Require Import List ZArith Bool Reals Sorted.
From Verif Require Import Base NumOps LoggerModel.
Import ListNotations.
Open Scope R_scope.

(** What the end of a trial contributes: three readings of the clock and the visits of the root. *)
Record tend : Type := mkT { r1 : R; r2 : R; r3 : R; tvisits : Z }.
(** A call of run_trials(n) at time [now], followed by the ends of trials. *)
Definition a_run (n : Z) (now : R) (ts : list tend) : list lop :=
  LRun n now :: map (fun t => LTrial (r1 t) (r2 t) (r3 t) (tvisits t)) ts.

(** The clock does not go backwards: the readings in order, from [now]. *)
Fixpoint clock (now : R) (ts : list tend) : Prop :=
  match ts with
  | [] => True
  | t :: r => now <= r1 t /\ r1 t <= r2 t /\ r2 t <= r3 t /\ clock (r3 t) r
  end.
(** All readings are within [T] after [now]. *)
Definition within (now T : R) (ts : list tend) : Prop :=
  forall t, In t ts -> now <= r1 t <= now + T /\ now <= r2 t <= now + T /\ now <= r3 t <= now + T.

(** The elements of a list at positions (from 1) that satisfy [f]. *)
Fixpoint at_from {X} (f : Z -> bool) (i : Z) (l : list X) : list X :=
  match l with
  | [] => []
  | x :: r => if f i then x :: at_from f (i + 1) r else at_from f (i + 1) r
  end.
Definition at_positions {X} (f : Z -> bool) (l : list X) : list X := at_from f 1 l.
Definition every (d : Z) (i : Z) : bool := (i mod d =? 0)%Z.

(** Positions at which a run logs if the counter of the logger starts at [k]. *)
Definition logs_at (k d i : Z) : bool := if (k <? d)%Z then every d (k + i) else every d (i - 1).

Definition nondecreasing (l : list entry) : Prop := StronglySorted Rle (map runtime l).
