(* The mutexes of the search: node locks, the transposition-table mutexes, the random number generator lock and the
   logging lock, and the order in which the threads of a pool take and release them.

   The other models make each visit of a node one atomic step, which is what the node lock is for.  Here the steps are
   the single lock and unlock operations, so that what the locks themselves guarantee, and whether threads can block
   each other for ever, can be stated.  Values stored in the nodes are left out; which children a node has, in which
   order its map lists them, and the transposition table are kept, because the locking depends on them. *)
From Coq Require Import List Arith Bool.
Import ListNotations.

(** One std::mutex object.  thts_decision_node.h and thts_chance_node.h (line 54): node_lock; thts_manager.h:187:
    dmap_mutexes; thts_manager.h:87: rng_lock; thts.h:63: logging_lock. *)
Inductive lockid : Type := LNode (n : nat) | LTable (i : nat) | LRng | LLog.

Definition lock_eqb (a b : lockid) : bool :=
  match a, b with
  | LNode m, LNode n => m =? n
  | LTable m, LTable n => m =? n
  | LRng, LRng | LLog, LLog => true
  | _, _ => false
  end.

(** What a node method does with locks while its caller holds the node's own lock.
    [AAll]: lock_all_children, work, unlock_all_children.  [AOne]: lock and unlock the child of one action, if there is
    such a child.  [ARng]: get_rand_int or get_rand_uniform (thts_manager.h:114-127).  [AGrow]: create_child_node. *)
Inductive act : Type := AAll | AOne | ARng | AGrow.

(** A single operation of a thread.  [IAll], [IOne] and [IGrow] look at the node and are replaced by the operations they
    stand for; [ITouch n k] is everything done on the table between taking and releasing its mutex
    (thts_chance_node.cpp:119-129). *)
Inductive instr : Type :=
| ILock (l : lockid) | IUnlock (l : lockid) | IAll (n : nat) | IOne (n : nat) | IGrow (n : nat) | ITouch (n k : nat).

(** A node: its level (twice the decision timestep for a decision node, one more for a chance node:
    thts_decision_node.cpp:20-38, thts_chance_node.cpp:21-37) and its children, with the action or observation leading
    to each, in the order its unordered_map lists them. *)
Record lnode : Type := mkLn { lev : nat; kids : list (nat * nat) }.
Definition is_chance (n : lnode) : bool := Nat.odd (lev n).

Record lstate : Type := mkLs {
  lnodes : list lnode;
  table : list ((nat * nat) * nat);       (* thts_types.h:220-221, dmap *)
  owner : lockid -> option nat;           (* which thread has locked a mutex *)
  todo : nat -> list instr                (* what each thread still has to do before it is idle *)
}.

(** [bodies]: for chance nodes (true) and decision nodes (false), the lock operations of the methods a trial calls.
    [reorder]: how an unordered_map may list its elements after an insertion; any family of permutations. *)
Record lconf : Type := mkLc {
  l_tt : bool;                                            (* use_transposition_table *)
  l_mutexes : nat;                                        (* num_transposition_table_mutexes *)
  l_hash : nat * nat -> nat;                              (* std::hash<DNodeIdTuple> *)
  l_bodies : bool -> list (list act);
  l_log : bool;                                           (* a logger has been given *)
  l_reorder : nat -> list (nat * nat) -> list (nat * nat)
}.

(** thts_chance_node.cpp:111-115 *)
Definition mutex_index (C : lconf) (id : nat * nat) : nat :=
  if 1 <? l_mutexes C then l_hash C id mod l_mutexes C else 0.

Definition set_owner (f : lockid -> option nat) (l : lockid) (v : option nat) : lockid -> option nat :=
  fun m => if lock_eqb m l then v else f m.
Definition set_todo (f : nat -> list instr) (t : nat) (v : list instr) : nat -> list instr :=
  fun u => if u =? t then v else f u.

Definition with_todo (s : lstate) (t : nat) (v : list instr) : lstate :=
  mkLs (lnodes s) (table s) (owner s) (set_todo (todo s) t v).

Fixpoint find_kid (k : nat) (l : list (nat * nat)) : option nat :=
  match l with
  | [] => None
  | (k', c) :: l' => if k' =? k then Some c else find_kid k l'
  end.

Fixpoint find_id (id : nat * nat) (l : list ((nat * nat) * nat)) : option nat :=
  match l with
  | [] => None
  | (id', c) :: l' => if (fst id' =? fst id) && (snd id' =? snd id) then Some c else find_id id l'
  end.

Fixpoint set_node (l : list lnode) (i : nat) (v : lnode) : list lnode :=
  match l, i with
  | [], _ => []
  | _ :: l', 0 => v :: l'
  | x :: l', S i' => x :: set_node l' i' v
  end.

(** children[key] = child; thts_decision_node.cpp:116, thts_chance_node.cpp:104, 122, 127 *)
Definition add_kid (C : lconf) (r : nat) (nodes : list lnode) (n : nat) (x : lnode) (k c : nat) : list lnode :=
  set_node nodes n (mkLn (lev x) (l_reorder C r ((k, c) :: kids x))).

(** The operations of one node method, run by a thread that will release the node's lock afterwards. *)
Definition compile (n : nat) (a : act) : list instr :=
  match a with
  | AAll => [IAll n]
  | AOne => [IOne n]
  | ARng => [ILock LRng; IUnlock LRng]
  | AGrow => [IGrow n]
  end.

(** One locked section of a trial: thts.cpp:134-138, 141-150, 162-165, 212-214, 216-218. *)
Definition section_code (n : nat) (body : list act) : list instr :=
  ILock (LNode n) :: flat_map (compile n) body ++ [IUnlock (LNode n)].

(** thts.cpp:266-281: the logging lock, and with it the lock of the root. *)
Definition log_code : list instr := [ILock LLog; ILock (LNode 0); IUnlock (LNode 0); IUnlock LLog].
(** thts.cpp:268, when it is not yet time to log; also thts.cpp:355. *)
Definition log_quiet_code : list instr := [ILock LLog; IUnlock LLog].

(** What the scheduler decides.  [LBegin]: an idle thread starts a section on a node, or the logging step.
    [LGo t k r]: thread t executes its next operation; k is the action or observation concerned, r the way the map is
    reordered by an insertion. *)
Inductive llabel : Type := LBegin (t n b : nat) | LLogStep (t : nat) (quiet : bool) | LGo (t k r : nat).

(** thts_decision_node.cpp:67-80, thts_chance_node.cpp:63-76, and the loops of emp_node.h:133-136,
    dp_chance_node.h:100-102, dp_decision_node.h:140-143 and 163-165, ent_chance_node.h:97-99,
    ent_decision_node.h:112-114.  The map cannot change between the two loops because the node is locked. *)
Definition all_code (x : lnode) : list instr :=
  map (fun p => ILock (LNode (snd p))) (kids x) ++ map (fun p => IUnlock (LNode (snd p))) (kids x).

(** thts_chance_node.cpp:97-130 up to taking the mutex, thts_decision_node.cpp:113-118.  A child that exists is
    returned; without table, and for chance nodes, a new node is made; otherwise the table is used under its mutex. *)
Definition grow (C : lconf) (s : lstate) (t n k r : nat) (x : lnode) (rest : list instr) : lstate :=
  match find_kid k (kids x) with
  | Some _ => with_todo s t rest
  | None =>
      if l_tt C && is_chance x
      then let m := LTable (mutex_index C (lev x, k)) in
           with_todo s t (ILock m :: ITouch n k :: IUnlock m :: rest)
      else mkLs (add_kid C r (lnodes s) n x k (length (lnodes s)) ++ [mkLn (S (lev x)) []]) (table s) (owner s)
                (set_todo (todo s) t rest)
  end.

(** thts_chance_node.cpp:119-129 *)
Definition touch (C : lconf) (s : lstate) (t n k r : nat) (x : lnode) (rest : list instr) : lstate :=
  match find_id (lev x, k) (table s) with
  | Some c => mkLs (add_kid C r (lnodes s) n x k c) (table s) (owner s) (set_todo (todo s) t rest)
  | None => mkLs (add_kid C r (lnodes s) n x k (length (lnodes s)) ++ [mkLn (S (lev x)) []])
                 (((lev x, k), length (lnodes s)) :: table s) (owner s) (set_todo (todo s) t rest)
  end.

(** One step; [None] if the label does not apply, which for a lock operation means that the thread has to wait. *)
Definition lstep (C : lconf) (s : lstate) (lb : llabel) : option lstate :=
  match lb with
  | LBegin t n b =>
      match todo s t, nth_error (lnodes s) n with
      | [], Some x =>
          match nth_error (l_bodies C (is_chance x)) b with
          | Some body => Some (with_todo s t (section_code n body))
          | None => None
          end
      | _, _ => None
      end
  | LLogStep t quiet =>
      match todo s t with
      | [] => if l_log C then Some (with_todo s t (if quiet then log_quiet_code else log_code)) else None
      | _ :: _ => None
      end
  | LGo t k r =>
      match todo s t with
      | [] => None
      | ILock l :: rest =>
          match owner s l with
          | None => Some (mkLs (lnodes s) (table s) (set_owner (owner s) l (Some t)) (set_todo (todo s) t rest))
          | Some _ => None
          end
      | IUnlock l :: rest =>
          Some (mkLs (lnodes s) (table s) (set_owner (owner s) l None) (set_todo (todo s) t rest))
      | IAll n :: rest => option_map (fun x => with_todo s t (all_code x ++ rest)) (nth_error (lnodes s) n)
      | IOne n :: rest =>
          option_map (fun x => match find_kid k (kids x) with
                               | Some c => with_todo s t (ILock (LNode c) :: IUnlock (LNode c) :: rest)
                               | None => with_todo s t rest
                               end) (nth_error (lnodes s) n)
      | IGrow n :: rest => option_map (fun x => grow C s t n k r x rest) (nth_error (lnodes s) n)
      | ITouch n k' :: rest => option_map (fun x => touch C s t n k' r x rest) (nth_error (lnodes s) n)
      end
  end.

(** A new search: the root alone (level 0), an empty table, nothing locked, all threads idle. *)
Definition linit : lstate := mkLs [mkLn 0 []] [] (fun _ => None) (fun _ => []).

Fixpoint lrun (C : lconf) (s : lstate) (ls : list llabel) : option lstate :=
  match ls with
  | [] => Some s
  | l :: ls' => match lstep C s l with Some s' => lrun C s' ls' | None => None end
  end.

(** * The lock operations of the algorithms' methods *)

(** Sections without further locks: visiting a node (thts_decision_node.cpp:85, thts_chance_node.cpp:81). *)
Definition visit_body : list act := [].
(** sample_observation of every chance node: the environment draws a random number or several, then the child is
    created.  uct_chance_node.cpp, ments_chance_node.cpp: sample_observation_random. *)
Definition sample_body : list act := [ARng; AGrow].

(** uct_decision_node.cpp:94-132 (fill_ucb_values), then get_max_key_break_ties_randomly and create_child_node;
    uct_decision_node.cpp: backup_uct takes no further lock, nor does the chance node's.  PUCT inherits both. *)
Definition uct_bodies (chance : bool) : list (list act) :=
  if chance then [visit_body; sample_body]
  else [visit_body; [AAll; ARng; AGrow]; [ARng; AGrow]].

(** ments_decision_node.cpp:190-199 and select_action_ments; backup_soft 331-343; ments_chance_node.cpp:75-90.  RENTS
    overrides select_action and compute_action_weights only, which lock alike. *)
Definition ments_bodies (chance : bool) : list (list act) :=
  if chance then [visit_body; sample_body; [AAll]]
  else [visit_body; [AAll; ARng; AGrow]; [AAll]].

(** dbments_decision_node.cpp:67-68, dbments_chance_node.cpp:39-40: the soft backup and then the dp backup. *)
Definition dbments_bodies (chance : bool) : list (list act) :=
  if chance then [visit_body; sample_body; [AAll; AAll]]
  else [visit_body; [AAll; ARng; AGrow]; [AAll; AAll]].

(** dents_decision_node.cpp:110-120 with or without dp values, dents_chance_node.cpp:55-68. *)
Definition dents_bodies (chance : bool) : list (list act) :=
  if chance then [visit_body; sample_body; [AAll; AAll]; [AAll]]
  else [visit_body; [AAll; ARng; AGrow]; [AAll; AAll; AAll]; [AAll; AAll]].

(** est_decision_node.cpp:43-58, est_chance_node.cpp:31-46, with or without dp values. *)
Definition est_bodies (chance : bool) : list (list act) :=
  if chance then [visit_body; sample_body; [AAll]; []]
  else [visit_body; [AAll; ARng; AGrow]; [AAll]; []].

(** tents_decision_node.cpp:175-203: the backup locks the child of the selected action only. *)
Definition tents_bodies (chance : bool) : list (list act) :=
  if chance then [visit_body; sample_body; [AAll]]
  else [visit_body; [AAll; ARng; AGrow]; [AOne]].
