(** The accesses to shared data between the lock operations of LockModel.v.

    LockModel.v has the lock and unlock operations of a search only. Here each thread also performs, as separate steps, the
    accesses to the data that several threads use: the members of a node that change during a search (visit and backup
    counts, values, the map of children, ...), the transposition table, the random number generator and the logger. Where
    the code accesses them is modelled from the code and independent of where it locks.

    Simplifications: a step stands for all accesses to the members of one node at that point. Members that never change
    after construction (state, depth, timestep, parent, actions, heuristic value) are left out, as are the members of
    ThtsPool itself (PoolModel.v). The constructor of a node accesses no other node and the new node is not yet shared. *)
From Coq Require Import List Arith Bool.
From Verif Require Import LockModel.
Import ListNotations.

(** Data several threads access. *)
Inductive data : Type := DNode (n : nat) | DTable | DRng | DLog.

(** [Do i]: an operation of LockModel.v. [Access w d]: an access to [d], writing if [w]. [Peek n]: reads members of all
    children of n, without locking them. *)
Inductive ainstr : Type := Do (i : instr) | Access (w : bool) (d : data) | Peek (n : nat).

(** What a method does while its caller holds the node's lock: access the node's own members, an operation of
    LockModel.v, or read the children without locking them. *)
Inductive mact : Type := Own (w : bool) | With (a : act) | PeekKids.

Record aconf : Type := mkAc {
  a_tt : bool;                                            (* use_transposition_table *)
  a_mutexes : nat;                                        (* num_transposition_table_mutexes *)
  a_hash : nat * nat -> nat;                              (* std::hash<DNodeIdTuple> *)
  a_bodies : bool -> list (list mact);                    (* the locked sections, for chance nodes (true) and others *)
  a_log : bool;                                           (* a logger has been given *)
  a_reorder : nat -> list (nat * nat) -> list (nat * nat)
}.

(** Its lock operations. *)
Definition acts (body : list mact) : list act := flat_map (fun m => match m with With a => [a] | _ => [] end) body.
Definition lock_conf (A : aconf) : lconf :=
  mkLc (a_tt A) (a_mutexes A) (a_hash A) (fun c => map acts (a_bodies A c)) (a_log A) (a_reorder A).

Record astate : Type := mkAs {
  anodes : list lnode;
  atable : list ((nat * nat) * nat);
  aowner : lockid -> option nat;
  atodo : nat -> list ainstr
}.
Definition set_code (f : nat -> list ainstr) (t : nat) (v : list ainstr) : nat -> list ainstr :=
  fun u => if u =? t then v else f u.
Definition with_code (s : astate) (t : nat) (v : list ainstr) : astate :=
  mkAs (anodes s) (atable s) (aowner s) (set_code (atodo s) t v).

(** get_rand_int and get_rand_uniform use the generator under rng_lock, thts_manager.h:114-127. *)
Definition mcompile (n : nat) (m : mact) : list ainstr :=
  match m with
  | Own w => [Access w (DNode n)]
  | With ARng => [Do (ILock LRng); Access true DRng; Do (IUnlock LRng)]
  | With a => map Do (compile n a)
  | PeekKids => [Peek n]
  end.
(** One locked section: thts.cpp:134-138, 141-150, 162-165, 212-214, 216-218. *)
Definition asection (n : nat) (body : list mact) : list ainstr :=
  Do (ILock (LNode n)) :: flat_map (mcompile n) body ++ [Do (IUnlock (LNode n))].
(** thts.cpp:266-281. Only the section that logs reads the root. *)
Definition alog : list ainstr :=
  [Do (ILock LLog); Access true DLog; Do (ILock (LNode 0)); Access false (DNode 0); Access true DLog; Do (IUnlock (LNode 0));
   Access true DLog; Do (IUnlock LLog)].
(** thts.cpp:268, when it is not yet time to log; also thts.cpp:355. *)
Definition alog_quiet : list ainstr := [Do (ILock LLog); Access true DLog; Do (IUnlock LLog)].

Definition read_node (c : nat) : ainstr := Access false (DNode c).
(** lock_all_children, then the members of the children are read, then unlock_all_children (see LockModel.all_code). *)
Definition aall (x : lnode) : list ainstr :=
  map (fun p => Do (ILock (LNode (snd p)))) (kids x) ++ map (fun p => read_node (snd p)) (kids x) ++
  map (fun p => Do (IUnlock (LNode (snd p)))) (kids x).
(** tents_decision_node.cpp:179-187: child_node.lock(), get_soft_q_value_over_temp, child_node.unlock(). *)
Definition aone (c : nat) : list ainstr := [Do (ILock (LNode c)); read_node c; Do (IUnlock (LNode c))].

Definition base (s : astate) : lstate := mkLs (anodes s) (atable s) (aowner s) (fun _ => []).
(** The effect of LockModel's [grow] and [touch], with the operations they prescribe next. *)
Definition rebase (s : astate) (t : nat) (s1 : lstate) (rest : list ainstr) : astate :=
  mkAs (lnodes s1) (table s1) (owner s1) (set_code (atodo s) t (map Do (todo s1 t) ++ rest)).

(** One step, with the labels of LockModel.v. *)
Definition astep (A : aconf) (s : astate) (lb : llabel) : option astate :=
  match lb with
  | LBegin t n b =>
      match atodo s t, nth_error (anodes s) n with
      | [], Some x => option_map (fun body => with_code s t (asection n body)) (nth_error (a_bodies A (is_chance x)) b)
      | _, _ => None
      end
  | LLogStep t quiet =>
      match atodo s t with
      | [] => if a_log A then Some (with_code s t (if quiet then alog_quiet else alog)) else None
      | _ :: _ => None
      end
  | LGo t k r =>
      match atodo s t with
      | [] => None
      | Access _ _ :: rest => Some (with_code s t rest)
      | Peek n :: rest => option_map (fun x => with_code s t (map (fun p => read_node (snd p)) (kids x) ++ rest)) (nth_error (anodes s) n)
      | Do (ILock l) :: rest =>
          match aowner s l with
          | None => Some (mkAs (anodes s) (atable s) (set_owner (aowner s) l (Some t)) (set_code (atodo s) t rest))
          | Some _ => None
          end
      | Do (IUnlock l) :: rest => Some (mkAs (anodes s) (atable s) (set_owner (aowner s) l None) (set_code (atodo s) t rest))
      | Do (IAll n) :: rest => option_map (fun x => with_code s t (aall x ++ rest)) (nth_error (anodes s) n)
      | Do (IOne n) :: rest =>
          option_map (fun x => match find_kid k (kids x) with
                               | Some c => with_code s t (aone c ++ rest)
                               | None => with_code s t rest
                               end) (nth_error (anodes s) n)
      | Do (IGrow n) :: rest => option_map (fun x => rebase s t (grow (lock_conf A) (base s) t n k r x []) rest) (nth_error (anodes s) n)
      | Do (ITouch n k') :: rest => option_map (fun x => rebase s t (touch (lock_conf A) (base s) t n k' r x []) rest) (nth_error (anodes s) n)
      end
  end.
Definition ainit : astate := mkAs [mkLn 0 []] [] (fun _ => None) (fun _ => []).
Fixpoint arun (A : aconf) (s : astate) (ls : list llabel) : option astate :=
  match ls with
  | [] => Some s
  | l :: ls' => match astep A s l with Some s' => arun A s' ls' | None => None end
  end.

(** * The sections of the algorithms *)

(** thts.cpp:162-165: the last node of a trial is visited (counter) and its heuristic value, a constant, read. *)
Definition last_section : list mact := [Own true].
(** thts.cpp:141-150 for every algorithm: get_num_children, visit, sample_observation_random and create_child_node,
    get_num_children, get_child_node. *)
Definition outcome_section : list mact := [Own true; With ARng; With AGrow; Own false].
(** thts.cpp:134-138: visit; select_action, then get_child_node. *)
Definition select_section (sel : list mact) : list mact := Own true :: sel ++ [Own false].

(** uct_decision_node.cpp: fill_ucb_values 94-132 reads the children between lock_all_children and unlock_all_children;
    select_action_ucb, select_action_random; backup_average_return writes the node only. PUCT inherits all of it. *)
Definition uct_sections (chance : bool) : list (list mact) :=
  if chance then [outcome_section; [Own true]]
  else [select_section [Own false; With AAll; With ARng; With AGrow]; select_section [Own false; With ARng; With AGrow];
        last_section; [Own true]].
(** ments_decision_node.cpp: compute_action_distribution 190-231, select_action_ments 240-248, backup_soft 331-343;
    ments_chance_node.cpp: backup_soft 75-90. RENTS reads the same members, and its context, which belongs to the trial. *)
Definition ments_sections (chance : bool) : list (list mact) :=
  if chance then [outcome_section; [Own true; With AAll; Own true]]
  else [select_section [With AAll; Own false; With ARng; With AGrow]; last_section; [Own true; With AAll; Own true]].
(** dbments_decision_node.cpp:55-69, dbments_chance_node.cpp:32-41; dp_decision_node.h:160-166, dp_chance_node.h:97-103. *)
Definition dbments_sections (chance : bool) : list (list mact) :=
  if chance then [outcome_section; [Own true; With AAll; Own true; With AAll; Own true]]
  else [select_section [With AAll; Own false; With ARng; With AGrow]; last_section; [Own true; With AAll; Own true; With AAll; Own true]].
(** dents_decision_node.cpp:101-131: action distribution, entropy backup, then dp or average backup;
    dents_chance_node.cpp:48-70. *)
Definition dents_sections (chance : bool) : list (list mact) :=
  if chance then [outcome_section; [Own true; With AAll; Own true; With AAll; Own true]; [Own true; With AAll; Own true]]
  else [select_section [With AAll; Own false; With ARng; With AGrow]; last_section;
        [Own true; With AAll; Own false; With AAll; Own true; With AAll; Own true]; [Own true; With AAll; Own false; With AAll; Own true]].
(** est_decision_node.cpp:43-59, est_chance_node.cpp:31-47. *)
Definition est_sections (chance : bool) : list (list mact) :=
  if chance then [outcome_section; [Own true; With AAll; Own true]; [Own true]]
  else [select_section [With AAll; Own false; With ARng; With AGrow]; last_section; [Own true; With AAll; Own true]; [Own true]].
(** tents_decision_node.cpp:175-203; the weights for selecting come from the node's own maps (the inherited
    compute_action_distribution still locks the children). *)
Definition tents_sections (chance : bool) : list (list mact) :=
  if chance then [outcome_section; [Own true; With AAll; Own true]]
  else [select_section [With AAll; Own false; With ARng; With AGrow]; last_section; [Own true; With AOne; Own true]].

(** recommend_action called by a user who holds the node's lock, while a search may be running.
    By value for DB-MENTS, DENTS and EST: dp_decision_node.h:133-145, emp_node.h:126-138, the children are locked. The
    random number is drawn while they are; here, after they are unlocked. *)
Definition recommend_locked : list mact := [Own false; With AAll; With ARng].
(** recommend_action_best_empirical and recommend_action_most_visited, uct_decision_node.cpp:204-242;
    recommend_action_best_soft_value and recommend_action_most_visited, ments_decision_node.cpp:262-304: children are
    read without their locks. *)
Definition recommend_unlocked : list mact := [Own false; PeekKids; With ARng].
(** The sections of [bodies], and recommendations at decision nodes. *)
Definition recommending (rec : list mact) (bodies : bool -> list (list mact)) (chance : bool) : list (list mact) :=
  if chance then bodies true else bodies false ++ [rec].
