(** Specification for C105: how large the values of RENTS can get. *)
From Coq Require Import List ZArith Reals.
From Verif Require Import EngineModel MentsModel MentsSpec.
Import ListNotations.
Open Scope R_scope.

Section Spec.
Context {S A : Type}.
Variable C : @econf S A.
Variable M : @mconf S A.

(** Rewards and initial values are at most [B] in size and states have at most [N] actions. In each step below
    [depth] a value gains at most a reward and the temperature times the logarithm of [N] or of 10^16, whichever is
    larger: relative weights are sums of at most [N] numbers up to one, and are replaced if they are below 10^-16. *)
Definition relative_bound (B N : R) (depth : Z) : R :=
  B + IZR (max_depth C - depth) * (B + Rmax (mtemp M) (mmin_temp M) * ln (Rmax N (IZR (10 ^ 16)))).
End Spec.
