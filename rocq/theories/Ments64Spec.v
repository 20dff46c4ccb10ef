(** Specification vocabulary: searches of MENTS in doubles that stay in range, and how far their values may drift. *)
From Coq Require Import List ZArith Bool Reals Permutation.
From Verif Require Import Base NumOps EngineModel MentsModel SoftSpec MentsSpec TreeSpec DoubleSpec Ments64Model.
Import ListNotations.
Open Scope R_scope.

(** Rounding error of one backup of a chance node with [ns] outcomes and of one of a decision node with [na] actions and
    temperature [t], with values up to [W] and errors [v] of exp and log. *)
Definition err_c (W : R) (ns : Z) : R := (10 * IZR ns + 4) * (u64 * W + eta64).
Definition err_d (v W t : R) (na : Z) : R := 10 * u64 * W + t * (v * (5 + 2 * ln (IZR na)) + 6 * IZR na * u64).

Section Spec.
Context {S A : Type}.
Variable C : @econf S A.
Variable K : @fconf S A.
(** What exp and log are off by; the largest heuristic or default value; the largest reward; the range of temperatures;
    the largest value; the numbers of actions and outcomes. *)
Variables v B0 Rw tlo thi W : R.
Variables na ns : Z.

(** The numbers are doubles in range, and the largest possible value (a leaf value and, for every level, a reward, the
    entropy at the highest temperature and rounding errors) is at most [W]. *)
Record in_range : Prop := mkRange {
  ir_temp : forall n, double (f_temp K n) /\ tlo <= dval (f_temp K n) <= thi;
  ir_tlo : powerRZ 2 (-900) <= tlo;
  ir_thi : thi <= powerRZ 2 900;
  ir_default : double (f_default K) /\ Rabs (dval (f_default K)) <= B0;
  ir_heur : forall s, double (f_heur K s) /\ Rabs (dval (f_heur K s)) <= B0;
  ir_reward : forall s a, double (f_reward K s a) /\ Rabs (dval (f_reward K s a)) <= Rw;
  ir_order : forall c l, Permutation l (f_order K c l);
  ir_acts : forall s, is_sink C s = false -> acts C s <> [] /\ (Z.of_nat (length (acts C s)) <= na)%Z;
  ir_succs : forall s a, (Z.of_nat (length (succs C s a)) <= ns)%Z;
  ir_na : (1 <= na <= 2 ^ 31)%Z;
  ir_ns : (0 <= ns <= 2 ^ 20)%Z;
  ir_depth : (0 <= max_depth C)%Z;
  ir_room : B0 + IZR (max_depth C) * (Rw + thi * ln (IZR na) + (err_c W ns + err_d v W thi na)) <= W;
  ir_W : 0 <= Rw /\ 0 <= W <= powerRZ 2 900 /\ W <= powerRZ 2 50 * tlo
}.

(** A configuration over the real numbers with the same numbers, a fixed temperature and no prior. *)
Record same_numbers (M : @mconf S A) : Prop := mkSame {
  sn_two : mtwo M = f_two K;
  sn_default : mdefault_q M = dval (f_default K);
  sn_reward : forall s a, mreward M s a = dval (f_reward K s a);
  sn_heur : forall s depth time, dheur (new_dnode C s depth time) = dval (f_heur K s);
  sn_temp : forall n, dval (f_temp K n) = mtemp M;
  sn_decay : mdecay M = None;
  sn_prior : mprior M = None
}.
End Spec.

(** What an explored action is worth if plan [p] is played after it: its reward plus what the plan is worth at its
    outcomes, each as likely as it was sampled. *)
Definition action_worth {S A} (aeqb : A -> A -> bool) (C : @econf S A) (M : @mconf S A) (m : @store S A) (bonus : list A -> (A -> R) -> R) (offset : @dnode S A -> R)
    (p : @mixed_plan A) (x : @cnode S A) : R :=
  mreward M (cstate x) (cact x) +
  mean (map (fun k => (match nth_error (dh m) (snd k) with Some y => samples C y | None => 0%Z end, mixed_worth aeqb C M m bonus offset p (snd k))) (ckids x)).
(** Without a prior there is no offset. *)
Definition off0 {S A} (_ : @dnode S A) : R := 0.
