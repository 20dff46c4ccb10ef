(** Specification vocabulary: dynamic programming values in doubles that stay in range, and how far they may drift. *)
From Coq Require Import List ZArith Bool Reals Permutation.
From Verif Require Import Base NumOps EngineModel MentsModel SoftSpec MentsSpec TreeSpec DoubleSpec Ments64Spec Dp64Model.
Import ListNotations.
Open Scope R_scope.

Section Spec.
Context {S A : Type}.
Variable C : @econf S A.
Variable K : @dpconf S A.
(** The largest heuristic value; the largest reward; the largest value; the number of outcomes. *)
Variables B0 Rw W : R.
Variable ns : Z.

(** The numbers are doubles in range, and the largest possible value (a heuristic value and, for every level, a reward
    and the rounding errors of a chance node) is at most [W]. *)
Record dp_range : Prop := mkDpRange {
  dr_heur : forall s, double (p_heur K s) /\ Rabs (dval (p_heur K s)) <= B0;
  dr_reward : forall s a, double (p_reward K s a) /\ Rabs (dval (p_reward K s a)) <= Rw;
  dr_orderd : forall n l, Permutation l (p_orderd K n l);
  dr_orderc : forall c l, Permutation l (p_orderc K c l);
  dr_ordera : forall l, Permutation l (p_ordera K l);
  dr_succs : forall s a, (Z.of_nat (length (succs C s a)) <= ns)%Z;
  dr_ns : (0 <= ns <= 2 ^ 20)%Z;
  dr_depth : (0 <= max_depth C)%Z;
  dr_room : B0 + IZR (max_depth C) * (Rw + err_c W ns) <= W;
  dr_W : 0 <= Rw /\ 0 <= W <= powerRZ 2 900
}.

(** A configuration over the real numbers with the same numbers. *)
Record dp_numbers (M : @mconf S A) : Prop := mkDpNum {
  dn_two : mtwo M = p_two K;
  dn_reward : forall s a, mreward M s a = dval (p_reward K s a);
  dn_heur : forall s depth time, dheur (new_dnode C s depth time) = dval (p_heur K s)
}.
End Spec.

(** What an explored action is worth if plan [p] is played after it: its reward plus what the plan is worth at its
    outcomes, each as likely as it was sampled (the initial heuristic value being one sample). *)
Definition pure_worth {S A} (aeqb : A -> A -> bool) (C : @econf S A) (M : @mconf S A) (m : @store S A) (p : @plan A) (x : @cnode S A) : R :=
  mreward M (cstate x) (cact x) +
  mean (map (fun k => (match nth_error (dh m) (snd k) with Some y => dp_samples C y | None => 0%Z end, worth aeqb C M m p (snd k))) (ckids x)).
