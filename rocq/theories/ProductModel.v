(** Model of the pool together with its trials: the worker threads of PoolModel.v run the trials of
    EngineModel.v (worker_fn, src/thts.cpp:302-323, calls run_thts_trial, 249-258, on line 320).

    A worker that starts a trial starts it in the engine in the same step; its trial is over exactly
    when the engine's trial is. set_new_env (which installs another tree) is left out: a run
    in which set_new_env succeeds is not a run of this model. *)
From Coq Require Import List ZArith Bool Reals.
From Verif Require Import Base NumOps PoolModel EngineModel.
Import ListNotations.

Section Product.
Context {S A : Type}.
Variable seqb : S -> S -> bool.
Variable aeqb : A -> A -> bool.
Variable C : @econf S A.

Inductive plabel : Type :=
| PPool (l : label)              (* a step of the pool protocol *)
| PTrial (l : @elabel S A).      (* a step inside a trial *)

(** The backup loop of the trial has ended, src/thts.cpp:201. *)
Definition trial_over (e : est) (t : nat) : bool :=
  match nth_error (@ths S A e) t with Some (TBack [] _ _ _ _) => true | _ => false end.

Definition prod_step (l : plabel) (s : pool * est) : option (PoolModel.event * (pool * est)) :=
  let (p, e) := s in
  match l with
  | PPool pl =>
      match pool_step p pl with
      | Some (EvStart i, p') =>
          match estep seqb aeqb C (LStart i) e with Some e' => Some (EvStart i, (p', e')) | None => None end
      | Some (EvEnd i, p') =>
          if trial_over e i
          then match estep seqb aeqb C (LRun i) e with Some e' => Some (EvEnd i, (p', e')) | None => None end
          else None
      | Some (EvSetEnvOk, _) => None
      | Some (ev, p') => Some (ev, (p', e))
      | None => None
      end
  | PTrial el =>
      match el with
      | LStart _ => None
      | LRun t => if trial_over e t then None
                  else match estep seqb aeqb C el e with Some e' => Some (EvNone, (p, e')) | None => None end
      | _ => match estep seqb aeqb C el e with Some e' => Some (EvNone, (p, e')) | None => None end
      end
  end.

(** Trace of pool events, newest first. *)
Fixpoint prod_run (tr : list PoolModel.event) (ls : list plabel) (s : pool * est) : option (list PoolModel.event * (pool * est)) :=
  match ls with
  | [] => Some (tr, s)
  | l :: r => match prod_step l s with Some (ev, s') => prod_run (ev :: tr) r s' | None => None end
  end.
Definition prod_init (n : nat) (z : Z) : pool * est := (pool_init n z, einit C n).

(** States reachable by a pool with [n] workers, created at time [z0], under some schedule. *)
Definition preach (n : nat) (z0 : Z) (tr : list PoolModel.event) (p : pool) (e : est) : Prop :=
  exists ls, prod_run [] ls (prod_init n z0) = Some (tr, (p, e)).
End Product.
Arguments PPool {S A}. Arguments PTrial {S A}.
