(** Specification vocabulary: settings of the MENTS family that keep trying every action, and games they play. *)
From Coq Require Import List ZArith Bool Reals.
From Verif Require Import Base NumOps EngineModel EngineSpec AlgoModel MentsModel SoftSpec MentsSpec WorldSpec.
Import ListNotations.
Open Scope R_scope.

Section Bold.
Context {S A : Type}.
Variable C : @econf S A.
Notation mconf := (@mconf S A).

(** Up to [V] visits of a node, exploration alone gives every one of up to [N] actions the probability [q] at least: the
    share of exploration is the lesser of [mmax_explore] and [meps / ln (visits + 1)] ([mroot_eps] at the root, if positive).
    Probabilities below 10^-16 are dropped. *)
Definition bold (M : mconf) (N q : R) (V : Z) : Prop :=
  / IZR (10 ^ 16) <= q /\ q * N * ln (IZR V + 2) <= meps M /\ (mroot_eps M <= 0 \/ q * N * ln (IZR V + 2) <= mroot_eps M) /\ q * N <= mmax_explore M.
(** Two settings for the same game: outcomes, rewards and whether there is an opponent agree. *)
Definition same_game (M M' : mconf) : Prop := mdistr M' = mdistr M /\ mreward M' = mreward M /\ mtwo M' = mtwo M.
(** Settings with which to play the game of [M0]. *)
Definition settings_for (M0 M : mconf) : Prop := ments_ok C M /\ prior_ok C M /\ explore_ok M /\ same_game M0 M.

(** What an action is worth at the root ... *)
Definition first_worth (M0 : mconf) (V : nat -> S -> Z -> R) (a : A) : R :=
  mreward M0 (root_state C) a + expected (fun o => V (Z.to_nat (max_depth C) - 1)%nat o (root_time C + 1)%Z) (mdistr M0 (root_state C) a).
(** ... and those that are worth as much as the game. *)
Definition best_first (M0 : mconf) (V : nat -> S -> Z -> R) (a : A) : Prop :=
  In a (acts C (root_state C)) /\ first_worth M0 V a = V (Z.to_nat (max_depth C)) (root_state C) (root_time C).
End Bold.
