(** Specification vocabulary: plain averages, and how far one computed in doubles may be off. *)
From Coq Require Import List ZArith Bool Reals.
From Verif Require Import Base EngineModel EngineSpec.
Import ListNotations.
Open Scope R_scope.

(** The average of a list (0 for the empty list). *)
Definition average (l : list R) : R :=
  match l with [] => 0 | _ => rsum l / IZR (Z.of_nat (length l)) end.
Definition count_of {T} (l : list T) : Z := Z.of_nat (length l).

(** A value as the player to move sees it: the second player of a two-player game wants small values. *)
Definition for_mover {S A} (two : bool) (n : @dnode S A) (v : R) : R := if two && Z.odd (dtime n) then - v else v.

(** [nb] backups, trials of at most [L] - 1 decisions, rewards and heuristic values of at most [rho]. *)
Definition avg_error (L : Z) (rho : R) (nb : Z) : R := IZR (2 * nb + 2 * L + 5) * powerRZ 2 (-52) * (IZR L * rho).
