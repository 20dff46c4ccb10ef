(** Model of UCT and PUCT: src/algorithms/uct/*.cpp, as an [algo] (AlgoModel.v).

    Doubles are real numbers. Hash maps are association lists; [uorder] is the order in which a map
    built by the code is iterated, an arbitrary rearrangement. *)
From Coq Require Import List ZArith Bool Reals.
From Verif Require Import Base NumOps HelperModel EngineModel MapModel AlgoModel.
Import ListNotations.

(** numeric_limits<double>::lowest() and numeric_limits<int>::lowest(). *)
Definition dbl_lowest : R := (- IZR (2 ^ 1024 - 2 ^ 971))%R.
Definition int_lowest : Z := (- 2 ^ 31)%Z.

(** UctDNode::compute_ucb_term, src/algorithms/uct/uct_decision_node.cpp:67-71. *)
Definition uct_term (num_visits child_visits : Z) : R :=
  let n := if (0 <? num_visits)%Z then IZR num_visits else 1%R in
  let c := if (0 <? child_visits)%Z then IZR child_visits else 1%R in
  sqrt (ln n / c).

(** PuctDNode::compute_ucb_term, src/algorithms/uct/puct_decision_node.cpp:24-32. *)
Definition puct_term (power : R) (num_visits child_visits : Z) : R :=
  let n := if (0 <? num_visits)%Z then IZR num_visits else 1%R in
  let c := if (0 <? child_visits)%Z then IZR child_visits else 1%R in
  if Req_EM_T power (1/2)%R then (sqrt n / c)%R else (Rpower n power / c)%R.

Section Uct.
Context {S A : Type}.
Variable seqb : S -> S -> bool.
Variable aeqb : A -> A -> bool.
Variable C : @econf S A.
Notation dnode := (@dnode S A).
Notation cnode := (@cnode S A).

(** UctManager, include/algorithms/uct/uct_manager.h:52-68, and the parts of ThtsManager and ThtsEnv
    not in [econf]. *)
Record uconf : Type := mkU {
  ubias : R;                               (* USE_AUTO_BIAS is -1 *)
  upseudo : Z;                             (* heuristic_psuedo_trials *)
  umost_visited : bool;                    (* recommend_most_visited *)
  ueps : R;                                (* epsilon_exploration *)
  uprior : option (S -> list (A * R));     (* prior_fn, None = nullptr *)
  utwo : bool;                             (* is_two_player_game *)
  uterm : Z -> Z -> R;                     (* virtual compute_ucb_term: [uct_term] or [puct_term p] *)
  udistr : S -> A -> list (S * R);         (* get_transition_distribution_itfc *)
  uorder : forall V, list (A * V) -> list (A * V)   (* iteration order of a map *)
}.
Variable U : uconf.

(** Members num_backups and avg_return of UctDNode and UctCNode. *)
Record ux : Type := mkUx { unb : Z; uavg : R }.

(** UctDNode constructor, uct_decision_node.cpp:19-45. The initial num_visits is [init_visits] of [econf]. *)
Definition uct_new_d (n : dnode) : ux :=
  match heuristic C with
  | Some _ => mkUx (upseudo U) (dheur n)
  | None => mkUx 0 0
  end.
(** UctCNode constructor, uct_chance_node.cpp:11-29. *)
Definition uct_new_c (_ : cnode) : ux := mkUx 0 0.

(** is_opponent, src/thts_decision_node.cpp:141-144; the last bit of an int is set iff it is odd. *)
Definition uct_opp (n : dnode) : R := if utwo U && Z.odd (dtime n) then (-1)%R else 1%R.

(** lines 101-110 of fill_ucb_values *)
Definition uct_bias (acts : list A) (kids : list (A * (cnode * ux))) : R :=
  if Req_EM_T (ubias U) (-1)%R then
    fold_left (fun bias a =>
                 match lookup aeqb a kids with
                 | None => bias
                 | Some (_, x) => if Rltb bias (Rabs (uavg x)) then Rabs (uavg x) else bias
                 end) acts (1 / 1000)%R
  else ubias U.

(** lines 114-125 of fill_ucb_values *)
Definition uct_value (n : dnode) (bias : R) (kids : list (A * (cnode * ux))) (a : A) : outcome R :=
  let child := lookup aeqb a kids in
  let v := (uterm U (dvisits n) (match child with Some (c, _) => cvisits c | None => 0%Z end) * bias)%R in
  bind (match uprior U with
        | Some p => bind (mat aeqb (p (dstate n)) a) (fun w => Ok (v * w)%R)
        | None => Ok v
        end) (fun v1 =>
  Ok (match child with Some (_, x) => v1 + uct_opp n * uavg x | None => v1 end)%R).

(** fill_ucb_values, uct_decision_node.cpp:94-132. *)
Fixpoint uct_fill (n : dnode) (bias : R) (kids : list (A * (cnode * ux))) (acts : list A) (m : list (A * R))
  : outcome (list (A * R)) :=
  match acts with
  | [] => Ok m
  | a :: r => bind (uct_value n bias kids a) (fun v => uct_fill n bias kids r (mput aeqb m a v))
  end.

(** vector of actions_yet_to_try, lines 144-149 *)
Definition untried (kids : list (A * (cnode * ux))) (acts : list A) : list A :=
  filter (fun a => negb (has_key aeqb kids a)) acts.

(** lines 159-162 of select_action_ucb *)
Definition uct_argmax (n : dnode) (kids : list (A * (cnode * ux))) (g : rng R) : outcome (A * rng R) :=
  bind (uct_fill n (uct_bias (acts C (dstate n)) kids) kids (acts C (dstate n)) []) (fun m =>
  get_max_key Rltb dbl_lowest (uorder U R m) g).

(** select_action_ucb, uct_decision_node.cpp:141-169. The child is created by the engine (LSelect). *)
Definition uct_select_ucb (n : dnode) (kids : list (A * (cnode * ux))) (g : rng R) : outcome (A * rng R) :=
  match uprior U, untried kids (acts C (dstate n)) with
  | None, (_ :: _) as l =>
      bind (get_rand_int 0 (Z.of_nat (length l)) g) (fun '(i, g1) =>
      bind (vec_at l i) (fun a => Ok (a, g1)))
  | _, _ => uct_argmax n kids g
  end.

(** select_action_random, uct_decision_node.cpp:174-181. *)
Definition uct_random (n : dnode) (g : rng R) : outcome (A * rng R) :=
  let l := acts C (dstate n) in
  bind (get_rand_int 0 (Z.of_nat (length l)) g) (fun '(i, g1) =>
  bind (vec_at_checked l i) (fun a => Ok (a, g1))).

(** select_action, uct_decision_node.cpp:189-197. *)
Definition uct_select (n : dnode) (kids : list (A * (cnode * ux))) (g : rng R) : outcome (A * rng R) :=
  if Rltb 0 (ueps U) then
    let '(u, g1) := get_rand_uniform g in
    if Rltb u (ueps U) then uct_random n g1 else uct_select_ucb n kids g1
  else uct_select_ucb n kids g.

(** recommend_action_best_empirical, uct_decision_node.cpp:204-220. *)
Definition uct_best_empirical (n : dnode) (kids : list (A * (cnode * ux))) (g : rng R) : outcome (A * rng R) :=
  let m := mbuild aeqb (fun a => match lookup aeqb a kids with
                                 | Some (_, x) => Some (uct_opp n * uavg x)%R
                                 | None => None end) (acts C (dstate n)) [] in
  match m with
  | [] => uct_random n g
  | _ => get_max_key Rltb dbl_lowest (uorder U R m) g
  end.

(** recommend_action_most_visited, uct_decision_node.cpp:225-240. *)
Definition uct_most_visited (n : dnode) (kids : list (A * (cnode * ux))) (g : rng R) : outcome (A * rng R) :=
  let m := mbuild aeqb (fun a => match lookup aeqb a kids with
                                 | Some (c, _) => Some (cvisits c)
                                 | None => None end) (acts C (dstate n)) [] in
  match m with
  | [] => uct_random n g
  | _ => get_max_key Z.ltb int_lowest (uorder U Z m) g
  end.

(** recommend_action, uct_decision_node.cpp:247-253. *)
Definition uct_recommend (n : dnode) (kids : list (A * (cnode * ux))) (g : rng R) : outcome (A * rng R) :=
  if umost_visited U then uct_most_visited n kids g else uct_best_empirical n kids g.

(** sample_observation_random, uct_chance_node.cpp:41-47. *)
Definition uct_sample (n : cnode) (g : rng R) : outcome (S * rng R) :=
  sample_from_distribution R_ops (udistr U (cstate n) (cact n)) true g.

(** backup_average_return, uct_decision_node.cpp:258-261 and uct_chance_node.cpp:59-62. *)
Definition uct_backup (x : ux) (ret : R) : ux :=
  let nb := (unb x + 1)%Z in
  mkUx nb (uavg x + (ret - uavg x) / IZR nb)%R.

(** UctDNode and UctCNode. The visit functions only call the base class (uct_decision_node.cpp:60-62). *)
Definition uct : @algo S A :=
  mkAlgo ux ux unit Datatypes.tt uct_new_d uct_new_c (fun _ x => x)
    (fun n _ kids cx g => bind (uct_select n kids g) (fun '(a, g1) => Ok (a, cx, g1)))
    (fun n _ cx g => bind (uct_sample n g) (fun '(o, g1) => Ok (o, cx, g1)))
    (fun _ x _ _ b => Ok (uct_backup x (b_tafter b)))
    (fun _ x _ _ b => Ok (uct_backup x (b_tafter b))).
End Uct.
Arguments mkU {S A}. Arguments ubias {S A}. Arguments upseudo {S A}. Arguments umost_visited {S A}.
Arguments ueps {S A}. Arguments uprior {S A}. Arguments utwo {S A}. Arguments uterm {S A}.
Arguments udistr {S A}. Arguments uorder {S A}.
