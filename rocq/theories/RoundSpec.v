(** Specification vocabulary for computed averages. *)
From Coq Require Import List ZArith Bool Reals.
From Verif Require Import Base NumOps EngineModel EngineSpec DoubleSpec UctSpec.
Import ListNotations.
Open Scope R_scope.

(** [avg] differs by at most [err] from the exact average of [l] in which [h] is counted [w] times more. *)
Definition near_mean (err : R) (w : Z) (h : R) (l : list R) (nb : Z) (avg : R) : Prop :=
  exists m, is_mean w h l nb m /\ Rabs (avg - m) <= err.

(** All rewards and heuristic values are doubles of absolute value at most [rho]; [enc] gives their representation. *)
Record double_env {S A} (C : @econf S A) (enc : R -> F) (rho : R) : Prop := mkDenv {
  denv_reward : forall s a o, double (enc (rwd C s a o)) /\ dval (enc (rwd C s a o)) = rwd C s a o /\ Rabs (rwd C s a o) <= rho;
  denv_heur : forall h s, heuristic C = Some h -> double (enc (h s)) /\ dval (enc (h s)) = h s /\ Rabs (h s) <= rho;
  denv_zero : double (enc 0) /\ dval (enc 0) = 0
}.

(** The rewards (and the value at the end of the trial, first) passed to the backups of a node, newest backup first. *)
Definition afters_d {S A} (d : nat) (tr : list (nat * @event S A)) : list (list R) :=
  flat_map (fun p => match snd p with
                     | EBackD d' _ after _ _ => if Nat.eqb d' d then [after] else []
                     | _ => [] end) tr.
Definition afters_c {S A} (c : nat) (tr : list (nat * @event S A)) : list (list R) :=
  flat_map (fun p => match snd p with
                     | EBackC c' _ after _ _ => if Nat.eqb c' c then [after] else []
                     | _ => [] end) tr.

(** A finite double between [lo] and [hi]. *)
Definition in_range (lo hi : R) (f : F) : Prop := double f /\ lo <= dval f <= hi.

(** All rewards and heuristic values are integers of absolute value at most [M]. *)
Definition integer_env {S A} (C : @econf S A) (M : Z) : Prop :=
  (forall s a o, exists z, rwd C s a o = IZR z /\ (Z.abs z <= M)%Z) /\
  (forall h s, heuristic C = Some h -> exists z, h s = IZR z /\ (Z.abs z <= M)%Z).
