(** Average returns of DENTS and EST over any arithmetic, in particular in binary64: which algorithms keep them, and the
    recommendation by average return. *)
From Coq Require Import List ZArith Bool Reals.
From Coq Require Import Floats.SpecFloat.
From Verif Require Import Base NumOps HelperModel EngineModel AlgoModel LseSpec RoundModel.
Import ListNotations.

Section Emp.
Context {S A N : Type}.
Notation dnode := (@dnode S A).
Notation cnode := (@cnode S A).
Variable O : numops N.
(** The heuristic value of a node, and the return passed to a backup (trial_cumulative_return_after_node), as numbers of
    this arithmetic. *)
Variable first : dnode -> N.
Variable ret : bargs -> N.

(** An algorithm whose nodes have, besides anything else, the members num_backups and avg_return of EmpNode
    (include/algorithms/common/emp_node.h:27-28, 34-35), read by [eD] and [eC]. Whatever the rest of the nodes does, and however
    actions and outcomes are chosen, these members are handled as follows:
    - decision nodes start with one backup of the heuristic value, chance nodes with none (EmpNode(1, heuristic_value)
      in dents_decision_node.cpp:8-28, EmpNode() in dents_chance_node.cpp:9-26; also the nodes of EST);
    - visits leave them alone;
    - every backup is backup_emp, emp_node.cpp:49-52 ([nx_backup]: the update of UCT). *)
Record keeps_avg (G : @algo S A) (eD : XD G -> nx N) (eC : XC G -> nx N) : Prop := mkKeeps {
  ka_new : forall n, eD (new_xd G n) = mkNx 1 (first n);
  ka_newc : forall n, eC (new_xc G n) = mkNx 0 (nzero O);
  ka_vis : forall leaf x, eD (vis_d G leaf x) = eD x;
  ka_back : forall n x kids cx b x1, back_d G n x kids cx b = Ok x1 -> eD x1 = nx_backup O (eD x) (ret b);
  ka_backc : forall n x kids cx b x1, back_c G n x kids cx b = Ok x1 -> eC x1 = nx_backup O (eC x) (ret b)
}.

(** The smallest such algorithm: EstDNode and EstCNode without dynamic programming values
    (est_decision_node.cpp:43-59, est_chance_node.cpp:31-47), with the choices of actions and outcomes left open. *)
Definition emp_over (sel : dnode -> nx N -> list (A * (cnode * nx N)) -> rng R -> outcome (A * rng R))
    (smp : cnode -> rng R -> outcome (S * rng R)) : @algo S A :=
  mkAlgo (nx N) (nx N) unit Datatypes.tt (fun n => mkNx 1 (first n)) (fun _ => mkNx 0 (nzero O)) (fun _ x => x)
    (fun n x kids cx g => bind (sel n x kids g) (fun '(a, g1) => Ok (a, cx, g1)))
    (fun n _ cx g => bind (smp n g) (fun '(o, g1) => Ok (o, cx, g1)))
    (fun _ x _ _ b => Ok (nx_backup O x (ret b)))
    (fun _ x _ _ b => Ok (nx_backup O x (ret b))).
End Emp.

(** The number that the code has for the return of a backup, when [enc] gives the numbers of rewards and heuristic
    values. *)
Definition ret64 (enc : R -> F) (b : bargs) : F := ret_after F_ops (map enc (b_after b)).

(** recommend_action_best_emp_value_impl, emp_node.cpp:22-44, in doubles. [two] is is_two_player_game, [thr] is
    recommend_visit_threshold, [order] the order in which a map of average returns is iterated. *)
Definition recommend_emp {S A} (two : bool) (thr : Z) (order : list (A * F) -> list (A * F))
    (n : @dnode S A) (kids : list (A * nx F)) (g : rng R) : outcome (A * rng R) :=
  let opp := nofZ F_ops (if two && Z.odd (dtime n) then -1 else 1)%Z in
  let val p := (fst p, nmul F_ops opp (navg (snd p))) in
  let hi := map val (filter (fun p => (thr <=? nnb (snd p))%Z) kids) in
  let lo := map val (filter (fun p => negb (thr <=? nnb (snd p))%Z) kids) in
  match hi with
  | [] => get_max_key SFltb f_lowest (order lo) g
  | _ => get_max_key SFltb f_lowest (order hi) g
  end.
