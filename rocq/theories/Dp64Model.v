(** Dynamic programming values in doubles: nodes, backups, searches and recommendations of the DP part of DB-MENTS,
    DENTS and EST with values in binary64. Actions and outcomes are picked arbitrarily (by a random integer), so that
    every selection the code could make, however its probabilities are rounded, is covered. *)
From Coq Require Import List ZArith Bool Reals.
From Coq Require Import Floats.SpecFloat.
From Verif Require Import Base NumOps HelperModel EngineModel AlgoModel LseModel LseSpec Ments64Model.
Import ListNotations.

(** DPDNode::backup_dp_impl over any arithmetic, dp_decision_node.cpp:61-71: [opp] is 1 or -1, [inf] is minus infinity,
    children are given with their num_backups and dp_value in the order of the loop. *)
Definition o_best {N} (O : numops N) (opp inf : N) (l : list (Z * N)) : N :=
  fold_left (fun v c => if (fst c =? 0)%Z then v else if nltb O (nmul O opp v) (nmul O opp (snd c)) then snd c else v) l (nmul O opp inf).

Section Dp64.
Context {S A : Type}.
Variable C : @econf S A.
Notation dnode := (@dnode S A).
Notation cnode := (@cnode S A).

(** The numbers of the manager, of the heuristic function and of the environment, as doubles. *)
Record dpconf : Type := mkDc64 {
  p_two : bool;                 (* is_two_player_game *)
  p_threshold : Z;              (* recommend_visit_threshold *)
  p_reward : S -> A -> F;       (* get_reward_itfc(state, action) *)
  p_heur : S -> F;              (* heuristic_fn, 0 at sinks, src/thts_decision_node.cpp:35-41; 0 for nullptr *)
  p_orderd : dnode -> list (Z * F) -> list (Z * F);     (* order in which the hash map of children is iterated *)
  p_orderc : cnode -> list (Z * F) -> list (Z * F);
  p_ordera : list (A * F) -> list (A * F)               (* order in which the maps of a recommendation are iterated *)
}.
Variable K : dpconf.

(** Members num_backups and dp_value of DPDNode and of DPCNode. *)
Record pmem : Type := mkP { p_nb : Z; p_val : F }.

(** opp_coeff, dp_decision_node.cpp:27, 62; is_opponent is src/thts_decision_node.cpp:141-144. *)
Definition p_opp (n : dnode) : F := nofZ F_ops (if p_two K && Z.odd (dtime n) then -1 else 1)%Z.
(** Constructors DPDNode(heuristic_value), dp_decision_node.h:37, and DPCNode(), dp_chance_node.h:37. *)
Definition new_dp (n : dnode) : pmem := mkP 1 (p_heur K (dstate n)).
Definition new_cp (_ : cnode) : pmem := mkP 0 (nofZ F_ops 0).
(** visit_dp, dp_decision_node.cpp:15-17. *)
Definition visit_p (leaf : bool) (x : pmem) : pmem := if leaf then mkP (p_nb x + 1) (p_val x) else x.
(** DPDNode::backup_dp_impl, dp_decision_node.cpp:61-74. *)
Definition back_dp (n : dnode) (x : pmem) (kids : list (A * (cnode * pmem))) : outcome pmem :=
  Ok (mkP (p_nb x + 1) (o_best F_ops (p_opp n) (S754_infinity true)
    (p_orderd K n (map (fun k => (p_nb (snd (snd k)), p_val (snd (snd k)))) kids)))).
(** DPCNode::backup_dp_impl, dp_chance_node.cpp:28-41. A count of 2^31 or more cannot be: num_backups++ would have
    overflowed, which is undefined. *)
Definition back_cp (n : cnode) (x : pmem) (kids : list (S * (dnode * pmem))) : outcome pmem :=
  if existsb (fun k => (2 ^ 31 <=? p_nb (snd (snd k)))%Z) kids then UB
  else Ok (mkP (p_nb x + 1)
    (o_chance F_ops (p_reward K (cstate n) (cact n)) (p_orderc K n (map (fun k => (p_nb (snd (snd k)), p_val (snd (snd k)))) kids)))).

(** The DP members of DBMentsDNode, DentsDNode, EstDNode and their chance nodes, with the choices left open. *)
Definition dp64 : @algo S A :=
  mkAlgo pmem pmem unit Datatypes.tt new_dp new_cp visit_p
    (fun n x kids cx g => bind (any_of (acts C (dstate n)) g) (fun '(a, g1) => Ok (a, cx, g1)))
    (fun n _ cx g => bind (any_of (succs C (cstate n) (cact n)) g) (fun '(o, g1) => Ok (o, cx, g1)))
    (fun n x kids _ _ => back_dp n x kids)
    (fun n x kids _ _ => back_cp n x kids).

(** recommend_action_best_dp_value_impl, dp_decision_node.cpp:24-44. *)
Definition recommend_dp (n : dnode) (kids : list (A * pmem)) (g : rng R) : outcome (A * rng R) :=
  let val p := (fst p, nmul F_ops (p_opp n) (p_val (snd p))) in
  let hi := map val (filter (fun p => (p_threshold K <=? p_nb (snd p))%Z) kids) in
  let lo := map val (filter (fun p => negb (p_threshold K <=? p_nb (snd p))%Z) kids) in
  match hi with
  | [] => get_max_key SFltb f_lowest (p_ordera K lo) g
  | _ => get_max_key SFltb f_lowest (p_ordera K hi) g
  end.
End Dp64.
