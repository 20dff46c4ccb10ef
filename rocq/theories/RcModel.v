(* Ownership of managers and nodes by reference counting.

   All pointers to managers and nodes are shared_ptr's made by make_shared, except parent (thts_decision_node.h:66,
   thts_chance_node.h:61) and the entries of the transposition table (thts_types.h:216-221), which are weak_ptr's.  Modelled:
   use counts, the children maps, the pointer of every node to its manager, the table, and the nested destructor calls.  Left
   out: statistics, states and actions (they own nothing of this), the weak parent pointers (they own nothing), and the memory
   block of a destroyed object, which make_shared keeps while weak_ptr's to it remain.  Changes of counts are atomic
   (std::shared_ptr), so histories of several threads are sequences of the operations below. *)
From Coq Require Import List Arith Bool.
Import ListNotations.

(** A manager with its dmap (thts_manager.h, member dmap), or a node: its level below the root (decision nodes even, chance
    nodes odd), its manager (thts_decision_node.h:62, thts_chance_node.h:56) and its map children. *)
Inductive okind : Type := Mgr (tab : list ((nat * nat) * nat)) | Node (lev mgr : nat) (kids : list (nat * nat)).
(** An object with the number of shared_ptr's to it; 0: destroyed. *)
Record obj : Type := mkO { what : okind; uses : nat }.

(** What the members of an object own, in order of destruction (last member first: thts_decision_node.h:60-71,
    thts_chance_node.h:53-64). *)
Definition links (k : okind) : list nat :=
  match k with Mgr _ => [] | Node _ m kids => map snd kids ++ [m] end.

Fixpoint put (h : list obj) (i : nat) (v : obj) : list obj :=
  match h, i with
  | [], _ => []
  | _ :: r, 0 => v :: r
  | x :: r, S j => x :: put r j v
  end.

(** ~shared_ptr: one use less; the last one runs the destructor (thts_decision_node.h, thts_chance_node.h: virtual
    destructors, defaulted), which destroys the members and so releases what they own.  [d]: how many such calls may be nested.
    [None]: nested too deep, or a destroyed object is released again. *)
Fixpoint release (d : nat) (h : list obj) (x : nat) : option (list obj) :=
  match d with
  | 0 => None
  | S d' =>
      match nth_error h x with
      | None => None
      | Some o =>
          match uses o with
          | 0 => None
          | 1 => fold_left (fun r y => match r with Some h' => release d' h' y | None => None end)
                   (links (what o)) (Some (put h x (mkO (what o) 0)))
          | S n => Some (put h x (mkO (what o) n))
          end
      end
  end.

(** copy of a shared_ptr *)
Definition use_more (h : list obj) (x : nat) : list obj :=
  match nth_error h x with Some o => put h x (mkO (what o) (S (uses o))) | None => h end.

Fixpoint kid (k : nat) (l : list (nat * nat)) : option nat :=
  match l with
  | [] => None
  | (k', c) :: l' => if k' =? k then Some c else kid k l'
  end.
Fixpoint entry (id : nat * nat) (l : list ((nat * nat) * nat)) : option nat :=
  match l with
  | [] => None
  | (id', c) :: l' => if (fst id' =? fst id) && (snd id' =? snd id) then Some c else entry id l'
  end.

(** [hands]: all shared_ptr's outside managers and nodes: the user's, those of pools (thts.h:83-84), of evaluation policies
    (mc_eval.h:40-41) and of running trials (thts.cpp:126-130, 186). *)
Record rstate : Type := mkR { heap : list obj; hands : list nat }.

(** What is done: a manager is made; a root is made with a manager; a pointer to an object that still exists is obtained
    (copied, by get_child_node, by parent.lock()); a child is created at a node; a pointer is given up. *)
Inductive rop : Type := RMgr | RRoot (m : nat) | RTake (x : nat) | RChild (n k : nat) | RDrop (x : nat).

(** [Refused]: the operation does not apply or throws std::bad_weak_ptr; [Crash]: a double release or a stack overflow. *)
Inductive result : Type := Done (s : rstate) | Refused | Crash.

(** create_child_node_helper and the insertion into children (and into the table, [tab]). *)
Definition fresh (s : rstate) (n : nat) (o : obj) (lev m : nat) (kids : list (nat * nat)) (k : nat)
    (newtab : option (list ((nat * nat) * nat))) : rstate :=
  let c := length (heap s) in
  let h1 := use_more (heap s) m ++ [mkO (Node (S lev) m []) 1] in
  let h2 := put h1 n (mkO (Node lev m ((k, c) :: kids)) (uses o)) in
  mkR (match newtab, nth_error h2 m with Some t, Some om => put h2 m (mkO (Mgr t) (uses om)) | _, _ => h2 end) (hands s).

(** ThtsDNode::create_child_node_itfc, thts_decision_node.cpp:113-118, and ThtsCNode::create_child_node_itfc,
    thts_chance_node.cpp:97-130; line 121 throws for an expired entry. *)
Definition rchild (tt : bool) (s : rstate) (n k : nat) : result :=
  match nth_error (heap s) n with
  | Some o =>
      match what o with
      | Node lev m kids =>
          match kid k kids with
          | Some _ => Done s
          | None =>
              if tt && Nat.odd lev then
                match nth_error (heap s) m with
                | Some (mkO (Mgr tab) _) =>
                    match entry (lev, k) tab with
                    | Some c =>
                        match nth_error (heap s) c with
                        | Some (mkO _ (S _)) =>
                            Done (mkR (put (use_more (heap s) c) n (mkO (Node lev m ((k, c) :: kids)) (uses o))) (hands s))
                        | _ => Refused
                        end
                    | None => Done (fresh s n o lev m kids k (Some (((lev, k), length (heap s)) :: tab)))
                    end
                | _ => Refused
                end
              else Done (fresh s n o lev m kids k None)
          end
      | Mgr _ => Refused
      end
  | None => Refused
  end.

Fixpoint drop_one (x : nat) (l : list nat) : list nat :=
  match l with
  | [] => []
  | y :: r => if y =? x then r else y :: drop_one x r
  end.
Definition holds (s : rstate) (x : nat) : bool := existsb (Nat.eqb x) (hands s).

Definition rdo (stack : nat) (tt : bool) (s : rstate) (o : rop) : result :=
  match o with
  | RMgr => Done (mkR (heap s ++ [mkO (Mgr []) 1]) (length (heap s) :: hands s))
  | RRoot m =>
      if holds s m then
        match nth_error (heap s) m with
        | Some (mkO (Mgr _) _) => Done (mkR (use_more (heap s) m ++ [mkO (Node 0 m []) 1]) (length (heap s) :: hands s))
        | _ => Refused
        end
      else Refused
  | RTake x =>
      match nth_error (heap s) x with
      | Some (mkO _ (S _)) => Done (mkR (use_more (heap s) x) (x :: hands s))
      | _ => Refused
      end
  | RChild n k => if holds s n then rchild tt s n k else Refused
  | RDrop x =>
      if holds s x then
        match release stack (heap s) x with
        | Some h => Done (mkR h (drop_one x (hands s)))
        | None => Crash
        end
      else Refused
  end.

(** A history; refused operations change nothing. *)
Fixpoint rhist (stack : nat) (tt : bool) (s : rstate) (l : list rop) : option rstate :=
  match l with
  | [] => Some s
  | o :: r => match rdo stack tt s o with
              | Done s' => rhist stack tt s' r
              | Refused => rhist stack tt s r
              | Crash => None
              end
  end.
Definition rnew : rstate := mkR [] [].
