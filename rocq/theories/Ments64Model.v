(** MENTS searches in doubles: nodes, backups and searches with values in binary64. Actions and outcomes are picked
    arbitrarily (by a random integer), so that every selection the code could make, however its probabilities are
    rounded, is covered. Without prior_fn. *)
From Coq Require Import List ZArith Bool Reals.
From Verif Require Import Base NumOps HelperModel EngineModel MapModel AlgoModel LseModel LseSpec.
Import ListNotations.

Section Ments64.
Context {S A : Type}.
Variable aeqb : A -> A -> bool.
Variable C : @econf S A.
Notation dnode := (@dnode S A).
Notation cnode := (@cnode S A).
(** std::exp and std::log. *)
Variables fexp flog : F -> F.

(** The numbers of MentsManager, of the heuristic function and of the environment, as doubles. *)
Record fconf : Type := mkFc {
  f_temp : dnode -> F;          (* get_temp, ments_decision_node.cpp:75-86 *)
  f_default : F;                (* default_q_value *)
  f_two : bool;                 (* is_two_player_game *)
  f_reward : S -> A -> F;       (* get_reward_itfc(state, action) *)
  f_heur : S -> F;              (* heuristic_fn, 0 at sinks, src/thts_decision_node.cpp:35-41; 0 for nullptr *)
  f_order : cnode -> list (Z * F) -> list (Z * F)   (* order in which the hash map of children is iterated *)
}.
Variable K : fconf.

(** Members num_backups and soft_value of MentsDNode and of MentsCNode. *)
Record fdmem : Type := mkFd { fd_nb : Z; fd_soft : F }.
Record fcmem : Type := mkFm { fc_nb : Z; fc_soft : F }.

(** is_opponent as a coefficient, src/thts_decision_node.cpp:141-144, ments_decision_node.cpp:109, 340. *)
Definition f_opp (n : dnode) : F := nofZ F_ops (if f_two K && Z.odd (dtime n) then -1 else 1)%Z.
(** Constructors, ments_decision_node.cpp:20-62 without prior_fn, ments_chance_node.cpp:11-30. *)
Definition new_d64 (n : dnode) : fdmem := mkFd 0 (f_heur K (dstate n)).
Definition new_c64 (_ : cnode) : fcmem := mkFm 0 (f_default K).
(** MentsDNode::visit, ments_decision_node.cpp:95-100. *)
Definition visit64 (leaf : bool) (x : fdmem) : fdmem := if leaf then mkFd (fd_nb x + 1) (fd_soft x) else x.
(** get_soft_q_value, ments_decision_node.cpp:108-127, without prior_fn. *)
Definition q64 (n : dnode) (kids : list (A * (cnode * fcmem))) (a : A) : F :=
  match lookup aeqb a kids with
  | Some (_, c) => nmul F_ops (fc_soft c) (f_opp n)
  | None => nmul F_ops (f_default K) (f_opp n)
  end.
(** MentsDNode::backup_soft, ments_decision_node.cpp:330-343. *)
Definition back_d64 (n : dnode) (x : fdmem) (kids : list (A * (cnode * fcmem))) : outcome fdmem :=
  Ok (mkFd (fd_nb x + 1) (o_soft F_ops fexp flog f_lowest (f_opp n) (f_temp K n) (map (q64 n kids) (acts C (dstate n))))).
(** MentsCNode::backup_soft, ments_chance_node.cpp:75-90. A count of 2^31 or more cannot be: num_backups++ would have
    overflowed, which is undefined. *)
Definition back_c64 (n : cnode) (x : fcmem) (kids : list (S * (dnode * fdmem))) : outcome fcmem :=
  if existsb (fun k => (2 ^ 31 <=? fd_nb (snd (snd k)))%Z) kids then UB
  else Ok (mkFm (fc_nb x + 1)
    (o_chance F_ops (f_reward K (cstate n) (cact n)) (f_order K n (map (fun k => (fd_nb (snd (snd k)), fd_soft (snd (snd k)))) kids)))).
(** Any element of a list: in place of select_action_ments, ments_decision_node.cpp:240-248, and
    sample_observation_random, ments_chance_node.cpp:42-48. *)
Definition any_of {T} (l : list T) (g : rng R) : outcome (T * rng R) :=
  bind (get_rand_int 0 (Z.of_nat (length l)) g) (fun '(i, g1) => bind (vec_at_checked l i) (fun x => Ok (x, g1))).

(** MentsDNode and MentsCNode with the choices left open. *)
Definition ments64 : @algo S A :=
  mkAlgo fdmem fcmem unit Datatypes.tt new_d64 new_c64 visit64
    (fun n x kids cx g => bind (any_of (acts C (dstate n)) g) (fun '(a, g1) => Ok (a, cx, g1)))
    (fun n _ cx g => bind (any_of (succs C (cstate n) (cact n)) g) (fun '(o, g1) => Ok (o, cx, g1)))
    (fun n x kids _ _ => back_d64 n x kids)
    (fun n x kids _ _ => back_c64 n x kids).
End Ments64.
