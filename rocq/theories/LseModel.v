(** The soft backup of MENTS over any arithmetic: the real numbers, or binary64 with the exp and log of the C library. *)
From Coq Require Import List ZArith Bool Reals.
From Verif Require Import Base NumOps.
Import ListNotations.

Section Arith.
Context {N : Type}.
Variable O : numops N.
(** std::exp, std::log and numeric_limits<double>::lowest(). *)
Variables nexp nlog : N -> N.
Variable low : N.

(** Normalisation term, ments_decision_node.cpp:160-166, for the Q values of the actions in turn. *)
Definition o_norm (temp : N) (qs : list N) : N :=
  fold_left (fun norm q => let v := ndiv O q temp in if nltb O norm v then v else norm) qs low.
(** The arguments of exp, ments_decision_node.cpp:171-172. *)
Definition o_args (temp : N) (qs : list N) : list N :=
  map (fun q => nsub O (ndiv O q temp) (o_norm temp qs)) qs.
(** The weights and their sum, ments_decision_node.cpp:169-175. *)
Definition o_weights (temp : N) (qs : list N) : list N := map nexp (o_args temp qs).
Definition o_sum (temp : N) (qs : list N) : N := fold_left (nadd O) (o_weights temp qs) (nzero O).
(** backup_soft, ments_decision_node.cpp:340-342; [opp] is 1 or -1. *)
Definition o_soft (opp temp : N) (qs : list N) : N :=
  nmul O (nmul O opp temp) (nadd O (nlog (o_sum temp qs)) (o_norm temp qs)).

(** Running average over children with their counts and values, ments_chance_node.cpp:78-87 (the same loop is at
    dp_chance_node.cpp:29-37 and ent_chance_node.cpp:20-29). An int is converted to a double before it is used. *)
Definition o_avg_step (p : N * N) (c : Z * N) : N * N :=
  if (fst c =? 0)%Z then p
  else let s := nadd O (snd p) (nofZ O (fst c)) in
       (nadd O (nmul O (fst p) (ndiv O (nsub O s (nofZ O (fst c))) s)) (ndiv O (nmul O (nofZ O (fst c)) (snd c)) s), s).
Definition o_avg (l : list (Z * N)) : N := fst (fold_left o_avg_step l (nzero O, nzero O)).
(** MentsCNode::backup_soft, ments_chance_node.cpp:75-90, and DPCNode::backup_dp_impl, dp_chance_node.cpp:28-41. *)
Definition o_chance (reward : N) (l : list (Z * N)) : N := nadd O (o_avg l) reward.
End Arith.
