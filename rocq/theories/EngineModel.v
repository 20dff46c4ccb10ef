(** Model of trials running concurrently on one search tree: src/thts.cpp:95-258 (selection and
    backup phase), src/thts_decision_node.cpp and src/thts_chance_node.cpp (visit, create_child,
    get_child).

    Simplifications.
    - Every critical section of a node (lock ... unlock) is one step. Different threads' steps
      interleave in any order.
    - select_action and sample_observation of the algorithms all have the form "choose a valid
      action / possible outcome, create its child if it is missing, return it"
      (e.g. src/algorithms/uct/uct_decision_node.cpp:141-169, src/algorithms/ments/ments_chance_node.cpp:42-48).
      The choice is an oracle, given in the label, so theorems hold for every algorithm and every
      random draw.
    - Observations are next states, as in all create_child_node_helper functions
      (e.g. src/algorithms/ments/ments_chance_node.cpp:108-118).
    - Nodes are numbers, indices in a heap; a child map is an association list. The position of a new
      entry (here: at the end) stands for an arbitrary one; no theorem depends on it.
    - The transposition table holds node numbers; nodes are never destroyed during a search (the
      expired-pointer case is TTModel.v). The table operation is part of the chance node's step,
      which is right for one table mutex (see TTModel.v for several).
    - The thread's context object is not part of this model (see ContextModel.v). *)
From Coq Require Import List ZArith Bool Reals.
From Verif Require Import Base NumOps.
Import ListNotations.

Section Engine.
Context {S A : Type}.
Variable seqb : S -> S -> bool.
Variable aeqb : A -> A -> bool.

(** The parts of ThtsManager (include/thts_manager.h) and ThtsEnv (include/thts_env.h) that trials use. *)
Record econf : Type := mkConf {
  is_sink : S -> bool;                (* is_sink_state_itfc *)
  acts : S -> list A;                 (* get_valid_actions_itfc *)
  succs : S -> A -> list S;           (* outcomes of get_observation_distribution / get_transition_distribution *)
  rwd : S -> A -> S -> R;             (* get_reward_itfc(state, action, observation) *)
  heuristic : option (S -> R);        (* heuristic_fn, None = nullptr *)
  max_depth : Z;
  mcts_mode : bool;
  use_tt : bool;                      (* use_transposition_table *)
  init_visits : Z;                    (* initial num_visits: 0, or heuristic_psuedo_trials for UCT,
                                         src/algorithms/uct/uct_decision_node.cpp:19-45 *)
  root_state : S;
  root_time : Z                       (* decision_timestep of the root *)
}.

(** ThtsDNode, include/thts_decision_node.h. *)
Record dnode : Type := mkD {
  dstate : S; ddepth : Z; dtime : Z; dvisits : Z; dheur : R; dkids : list (A * nat)
}.
(** ThtsCNode, include/thts_chance_node.h. *)
Record cnode : Type := mkC {
  cstate : S; cact : A; cdepth : Z; ctime : Z; cvisits : Z; ckids : list (S * nat)
}.
(** All nodes, and the transposition table ThtsManager::dmap. *)
Record store : Type := mkStore {
  dh : list dnode; ch : list cnode; tt : list ((Z * S) * nat)
}.

Variable C : econf.

(** ThtsDNode constructor, src/thts_decision_node.cpp:20-38: sinks get heuristic value zero. *)
Definition new_dnode (s : S) (depth time : Z) : dnode :=
  mkD s depth time (init_visits C)
      (match heuristic C with
       | Some h => if is_sink C s then 0%R else h s
       | None => 0%R
       end) [].
(** ThtsCNode constructor, src/thts_chance_node.cpp:21-37. *)
Definition new_cnode (s : S) (a : A) (depth time : Z) : cnode := mkC s a depth time 0 [].

Fixpoint lookup {K V} (eqb : K -> K -> bool) (k : K) (m : list (K * V)) : option V :=
  match m with
  | [] => None
  | (k', v) :: r => if eqb k' k then Some v else lookup eqb k r
  end.

(** equal_to<DNodeIdTuple>, src/thts_types.cpp:496-498. *)
Definition id_eqb (x y : Z * S) : bool := Z.eqb (fst x) (fst y) && seqb (snd x) (snd y).

(** ThtsDNode::is_leaf, src/thts_decision_node.cpp:99-101. *)
Definition is_leaf (n : dnode) : bool := is_sink C (dstate n) || (max_depth C <=? ddepth n)%Z.

(** ThtsDNode::visit_itfc, src/thts_decision_node.cpp:85-87; ThtsCNode::visit_itfc, src/thts_chance_node.cpp:81-83. *)
Definition visit_d (n : dnode) : dnode :=
  mkD (dstate n) (ddepth n) (dtime n) (dvisits n + 1) (dheur n) (dkids n).
Definition visit_c (n : cnode) : cnode :=
  mkC (cstate n) (cact n) (cdepth n) (ctime n) (cvisits n + 1) (ckids n).

Definition add_dkid (n : dnode) (a : A) (c : nat) : dnode :=
  mkD (dstate n) (ddepth n) (dtime n) (dvisits n) (dheur n) (dkids n ++ [(a, c)]).
Definition add_ckid (n : cnode) (o : S) (d : nat) : cnode :=
  mkC (cstate n) (cact n) (cdepth n) (ctime n) (cvisits n) (ckids n ++ [(o, d)]).

(** ThtsDNode::create_child_node_itfc, src/thts_decision_node.cpp:113-118, with the helpers that give
    the child the node's state, depth and timestep (e.g. src/algorithms/uct/uct_decision_node.cpp,
    create_child_node_helper). [d] is the node's number, [n] its contents. *)
Definition create_child_d (st : store) (d : nat) (n : dnode) (a : A) : store :=
  match lookup aeqb a (dkids n) with
  | Some _ => mkStore (upd (dh st) d n) (ch st) (tt st)
  | None =>
      mkStore (upd (dh st) d (add_dkid n a (length (ch st))))
              (ch st ++ [new_cnode (dstate n) a (ddepth n) (dtime n)])
              (tt st)
  end.

(** ThtsCNode::create_child_node_itfc, src/thts_chance_node.cpp:97-130, with the helpers that give the
    child depth and timestep one larger. The boolean tells whether a decision node was constructed. *)
Definition create_child_c (st : store) (c : nat) (n : cnode) (o : S) : store * bool :=
  match lookup seqb o (ckids n) with
  | Some _ => (mkStore (dh st) (upd (ch st) c n) (tt st), false)
  | None =>
      let fresh := length (dh st) in
      let node := new_dnode o (cdepth n + 1) (ctime n + 1) in
      if use_tt C then
        let id := (ctime n, o) in
        match lookup id_eqb id (tt st) with
        | Some d => (mkStore (dh st) (upd (ch st) c (add_ckid n o d)) (tt st), false)
        | None => (mkStore (dh st ++ [node]) (upd (ch st) c (add_ckid n o fresh)) (tt st ++ [(id, fresh)]), true)
        end
      else (mkStore (dh st ++ [node]) (upd (ch st) c (add_ckid n o fresh)) (tt st), true)
  end.

(** Local state of a thread in run_thts_trial, src/thts.cpp:249-258. Vectors are lists with their back
    element first. *)
Inductive tstate : Type :=
| TIdle
| TSel (cur : nat) (flag : bool) (nodes : list (nat * nat)) (rewards : list R)       (* loop head, 132 *)
| TChance (cur : nat) (a : A) (c : nat) (flag : bool) (nodes : list (nat * nat)) (rewards : list R)  (* 140 *)
| TBack (nodes : list (nat * nat)) (before after : list R) (tafter total : R)        (* loop head, 201 *)
| TBackD (d : nat) (nodes : list (nat * nat)) (before after : list R) (tafter total : R)  (* 215 *)
| TBad.                                     (* at() threw, or back() of an empty vector *)

(** What can be observed of a trial. The list arguments of the backups are rewards_before and
    rewards_after in vector order. *)
Inductive event : Type :=
| EStart
| EVisitD (d : nat) (a : A) (c : nat)              (* decision node visited, action selected, child *)
| EVisitC (c : nat) (o : S) (d : nat) (gained : bool) (* chance node visited, outcome, child, children grew *)
| EFinal (d : nat) (hv : R)                        (* last node visited *)
| EBackC (c : nat) (before after : list R) (tafter total : R)
| EBackD (d : nat) (before after : list R) (tafter total : R)
| EDone
| ENewD (d : nat) | ENewC (c : nat).               (* node constructed *)

Record est : Type := mkEst { mem : store; ths : list tstate; etrace : list (nat * event) (* newest first *) }.

(** State after the ThtsPool constructor, src/thts.cpp:25-52: the client made the root node. *)
Definition einit (nthreads : nat) : est :=
  mkEst (mkStore [new_dnode (root_state C) 0 (root_time C)] [] []) (repeat TIdle nthreads) [].

(** should_continue_selection_phase, src/thts.cpp:95-103. *)
Definition should_continue (n : dnode) (flag : bool) : bool :=
  if is_leaf n then false else if mcts_mode C && flag then false else true.

Inductive elabel : Type :=
| LStart (t : nat)              (* worker t calls run_thts_trial *)
| LSelect (t : nat) (a : A)     (* src/thts.cpp:134-138 with select_action choosing a *)
| LSample (t : nat) (o : S)     (* src/thts.cpp:141-158 with sample_observation choosing o *)
| LRun (t : nat).               (* any other step of worker t *)

Definition out (s : est) (t : nat) (m : store) (x : tstate) (evs : list event) : option est :=
  Some (mkEst m (upd (ths s) t x) (map (pair t) (rev evs) ++ etrace s)).

Definition sumR (l : list R) : R := fold_left Rplus l 0%R.

(** run_selection_phase and run_backup_phase, src/thts.cpp:124-220. [None]: the label is not possible. *)
Definition estep (l : elabel) (s : est) : option est :=
  match l with
  | LStart t =>
      match nth_error (ths s) t with
      | Some TIdle => out s t (mem s) (TSel 0 false [] []) [EStart]              (* 129-130 *)
      | _ => None
      end
  | LSelect t a =>
      match nth_error (ths s) t with
      | Some (TSel cur flag nodes rewards) =>
          match nth_error (dh (mem s)) cur with
          | Some n =>
              if should_continue n flag && existsb (aeqb a) (acts C (dstate n)) then
                let isnew := match lookup aeqb a (dkids n) with Some _ => false | None => true end in
                let m1 := create_child_d (mem s) cur (visit_d n) a in             (* 135-136 *)
                match nth_error (dh m1) cur with
                | Some n1 =>
                    match lookup aeqb a (dkids n1) with                            (* 137: at() *)
                    | Some c => out s t m1 (TChance cur a c flag nodes rewards)
                                  (EVisitD cur a c :: if isnew then [ENewC c] else [])
                    | None => out s t m1 TBad []
                    end
                | None => out s t m1 TBad []
                end
              else None
          | None => out s t (mem s) TBad []
          end
      | _ => None
      end
  | LSample t o =>
      match nth_error (ths s) t with
      | Some (TChance cur a c flag nodes rewards) =>
          match nth_error (ch (mem s)) c, nth_error (dh (mem s)) cur with
          | Some n, Some dn =>
              if existsb (seqb o) (succs C (cstate n) (cact n)) then
                let pre := length (ckids n) in                                     (* 142 *)
                let '(m1, isnew) := create_child_c (mem s) c (visit_c n) o in      (* 143-144 *)
                match nth_error (ch m1) c with
                | Some n1 =>
                    let post := length (ckids n1) in                               (* 145 *)
                    let flag1 := if Nat.ltb pre post then true else flag in        (* 146-148 *)
                    match lookup seqb o (ckids n1) with                            (* 149: at() *)
                    | Some d =>
                        let r := rwd C (dstate dn) a o in                          (* 153-154 *)
                        out s t m1 (TSel d flag1 ((cur, c) :: nodes) (r :: rewards)) (* 155-158 *)
                          (EVisitC c o d (Nat.ltb pre post) :: if isnew then [ENewD d] else [])
                    | None => out s t m1 TBad []
                    end
                | None => out s t m1 TBad []
                end
              else None
          | _, _ => out s t (mem s) TBad []
          end
      | _ => None
      end
  | LRun t =>
      match nth_error (ths s) t with
      | Some (TSel cur flag nodes rewards) =>
          match nth_error (dh (mem s)) cur with
          | Some n =>
              if should_continue n flag then None
              else                                                                 (* 162-165 *)
                let m1 := mkStore (upd (dh (mem s)) cur (visit_d n)) (ch (mem s)) (tt (mem s)) in
                let hv := dheur n in
                let all := rewards in                                              (* 189-199 *)
                out s t m1 (TBack nodes all [hv] hv (sumR (rev (hv :: all)))) [EFinal cur hv]
          | None => out s t (mem s) TBad []
          end
      | Some (TBack nodes before after tafter total) =>
          match nodes with
          | [] => out s t (mem s) TIdle [EDone]
          | (d, c) :: nodes1 =>
              match before with
              | [] => out s t (mem s) TBad []                                      (* back() of an empty vector *)
              | r :: before1 =>                                                    (* 202-214 *)
                  let after1 := r :: after in
                  let tafter1 := (tafter + r)%R in
                  out s t (mem s) (TBackD d nodes1 before1 after1 tafter1 total)
                    [EBackC c (rev before1) (rev after1) tafter1 total]
              end
          end
      | Some (TBackD d nodes before after tafter total) =>                         (* 216-218 *)
          out s t (mem s) (TBack nodes before after tafter total)
            [EBackD d (rev before) (rev after) tafter total]
      | _ => None
      end
  end.

Fixpoint erun (ls : list elabel) (s : est) : option est :=
  match ls with
  | [] => Some s
  | l :: r => match estep l s with Some s1 => erun r s1 | None => None end
  end.
End Engine.
Arguments mkD {S A}. Arguments dstate {S A}. Arguments ddepth {S A}. Arguments dtime {S A}.
Arguments dvisits {S A}. Arguments dheur {S A}. Arguments dkids {S A}.
Arguments mkC {S A}. Arguments cstate {S A}. Arguments cact {S A}. Arguments cdepth {S A}.
Arguments ctime {S A}. Arguments cvisits {S A}. Arguments ckids {S A}.
Arguments mkStore {S A}. Arguments dh {S A}. Arguments ch {S A}. Arguments tt {S A}.
Arguments is_sink {S A}. Arguments acts {S A}. Arguments succs {S A}. Arguments rwd {S A}.
Arguments heuristic {S A}. Arguments max_depth {S A}. Arguments mcts_mode {S A}. Arguments use_tt {S A}.
Arguments init_visits {S A}. Arguments root_state {S A}. Arguments root_time {S A}. Arguments mkConf {S A}.
Arguments mkEst {S A}. Arguments mem {S A}. Arguments ths {S A}. Arguments etrace {S A}.
Arguments TIdle {A}. Arguments TSel {A}. Arguments TChance {A}. Arguments TBack {A}. Arguments TBackD {A}. Arguments TBad {A}.
Arguments EStart {S A}. Arguments EVisitD {S A}. Arguments EVisitC {S A}. Arguments EFinal {S A}.
Arguments EBackC {S A}. Arguments EBackD {S A}. Arguments EDone {S A}. Arguments ENewD {S A}. Arguments ENewC {S A}.
Arguments LStart {S A}. Arguments LSelect {S A}. Arguments LSample {S A}. Arguments LRun {S A}.
