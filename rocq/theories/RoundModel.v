(** UCT's returns and averages over any arithmetic: the real numbers ([R_ops]), real numbers with rounding
    ([rnd_ops]) or binary64 ([F_ops]). *)
From Coq Require Import List ZArith Bool Reals.
From Verif Require Import Base NumOps HelperModel EngineModel AlgoModel UctModel.
Import ListNotations.

Section Arith.
Context {N : Type}.
Variable O : numops N.

(** total_return_after, src/thts.cpp:195-206: the value at the end of the trial, to which rewards are added, the
    last one first. [after] is rewards_after, oldest entry first. *)
Definition ret_after (after : list N) : N :=
  match after with
  | [] => nzero O
  | v :: rewards => fold_left (nadd O) rewards v
  end.

(** Members num_backups and avg_return (include/algorithms/uct/uct_decision_node.h:44-45 and uct_chance_node.h:38-39). *)
Record nx : Type := mkNx { nnb : Z; navg : N }.

(** backup_average_return, uct_decision_node.cpp:258-261 and uct_chance_node.cpp:59-62. The int num_backups is
    converted to double. *)
Definition nx_backup (x : nx) (ret : N) : nx :=
  let nb := (nnb x + 1)%Z in
  mkNx nb (nadd O (navg x) (ndiv O (nsub O ret (navg x)) (nofZ O nb))).
End Arith.
Arguments nx : clear implicits. Arguments mkNx {N}. Arguments nnb {N}. Arguments navg {N}.

Section Algo.
Context {S A N : Type}.
Variable C : @econf S A.
Variable U : @uconf S A.
Variable O : numops N.
(** The number that the code has for a reward or heuristic value. *)
Variable enc : R -> N.
(** select_action and sample_observation of the nodes. Any functions: this covers every way in which the UCB
    terms, logarithms and square roots may be rounded. *)
Variable sel : @dnode S A -> nx N -> list (A * (@cnode S A * nx N)) -> rng R -> outcome (A * rng R).
Variable smp : @cnode S A -> rng R -> outcome (S * rng R).

(** UctDNode constructor, uct_decision_node.cpp:19-45, and UctCNode constructor, uct_chance_node.cpp:11-29. *)
Definition nx_new_d (n : @dnode S A) : nx N :=
  match heuristic C with
  | Some _ => mkNx (upseudo U) (enc (dheur n))
  | None => mkNx 0 (nzero O)
  end.
Definition nx_new_c (_ : @cnode S A) : nx N := mkNx 0 (nzero O).

(** UctDNode and UctCNode with all sums and averages computed by [O]. The return after a node is recomputed from
    the rewards after it; the loop in src/thts.cpp keeps it in a variable. *)
Definition uct_over : @algo S A :=
  mkAlgo (nx N) (nx N) unit Datatypes.tt nx_new_d nx_new_c (fun _ x => x)
    (fun n x kids cx g => bind (sel n x kids g) (fun '(a, g1) => Ok (a, cx, g1)))
    (fun n _ cx g => bind (smp n g) (fun '(o, g1) => Ok (o, cx, g1)))
    (fun _ x _ _ b => Ok (nx_backup O x (ret_after O (map enc (b_after b)))))
    (fun _ x _ _ b => Ok (nx_backup O x (ret_after O (map enc (b_after b))))).
End Algo.
