(** Specification for C106: how large the values of TENTS can get. *)
From Coq Require Import List ZArith Reals.
From Verif Require Import EngineModel MentsModel.
Import ListNotations.
Open Scope R_scope.

Section Spec.
Context {S A : Type}.
Variable C : @econf S A.
Variable M : @mconf S A.

(** Rewards and initial values are at most [B] in size and states have at most [N] actions. In each step below
    [depth] a value gains at most a reward and the temperature times the logarithm of [N] (at least two actions). *)
Definition sparse_bound (B N : R) (depth : Z) : R :=
  B + IZR (max_depth C - depth) * (B + Rmax (mtemp M) (mmin_temp M) * ln (Rmax N 2)).
End Spec.
