(* The transposition table over the lifetimes of several trees built with one manager.

   The table holds weak pointers (thts_types.h:220-221); the trees own their nodes: a pool or user owns the root, every
   node owns its children, and the parent pointers are weak (thts_decision_node.h:66, thts_chance_node.h:61).  So a node
   exists as long as it can be reached from a root that is still owned.  Statistics are left out, and there is one thread:
   pools run one after the other.  The node pointers a running trial holds are not modelled, they are gone once the trial
   is. *)
From Coq Require Import List Arith Bool.
Import ListNotations.

Record tnode : Type := mkTn { tlev : nat; tkids : list (nat * nat) }.
Definition chance_node (x : tnode) : bool := Nat.odd (tlev x).

(** [theap]: all nodes ever made; [troots]: the roots still owned; [ttab]: dmap. *)
Record tstate : Type := mkTs { theap : list tnode; troots : list nat; ttab : list ((nat * nat) * nat) }.

Definition kids_of (h : list tnode) (n : nat) : list nat :=
  match nth_error h n with Some x => map snd (tkids x) | None => [] end.

Fixpoint spread (k : nat) (h : list tnode) (ns : list nat) : list nat :=
  match k with
  | 0 => ns
  | S k' => ns ++ spread k' h (flat_map (kids_of h) ns)
  end.

(** Not expired: the node is still owned, directly or through its ancestors. *)
Definition exists_still (s : tstate) (n : nat) : bool :=
  existsb (Nat.eqb n) (spread (length (theap s)) (theap s) (troots s)).

Fixpoint kid (k : nat) (l : list (nat * nat)) : option nat :=
  match l with
  | [] => None
  | (k', c) :: l' => if k' =? k then Some c else kid k l'
  end.

Fixpoint entry (id : nat * nat) (l : list ((nat * nat) * nat)) : option nat :=
  match l with
  | [] => None
  | (id', c) :: l' => if (fst id' =? fst id) && (snd id' =? snd id) then Some c else entry id l'
  end.

Fixpoint put_node (l : list tnode) (i : nat) (v : tnode) : list tnode :=
  match l, i with
  | [], _ => []
  | _ :: l', 0 => v :: l'
  | x :: l', S i' => x :: put_node l' i' v
  end.

Definition link (h : list tnode) (n : nat) (x : tnode) (k c : nat) : list tnode :=
  put_node h n (mkTn (tlev x) ((k, c) :: tkids x)).

(** The result of creating a child. *)
Inductive made : Type := Made (c : nat) (s : tstate) | BadWeakPtr.

Definition fresh (s : tstate) (n : nat) (x : tnode) (k : nat) (tab : list ((nat * nat) * nat)) : made :=
  Made (length (theap s))
       (mkTs (link (theap s) n x k (length (theap s)) ++ [mkTn (S (tlev x)) []]) (troots s) tab).

(** thts_decision_node.cpp:113-118 for decision nodes, thts_chance_node.cpp:97-130 for chance nodes.  Line 121: making a
    shared_ptr of an expired weak_ptr throws std::bad_weak_ptr. *)
Definition create_child (tt : bool) (s : tstate) (n : nat) (x : tnode) (k : nat) : made :=
  match kid k (tkids x) with
  | Some c => Made c s
  | None =>
      if tt && chance_node x
      then match entry (tlev x, k) (ttab s) with
           | Some c => if exists_still s c then Made c (mkTs (link (theap s) n x k c) (troots s) (ttab s)) else BadWeakPtr
           | None => fresh s n x k (((tlev x, k), length (theap s)) :: ttab s)
           end
      else fresh s n x k (ttab s)
  end.

(** What is done with one manager: a new root is made; a child is created below an existing node; a root is given up
    (its pool and the user's pointer are destroyed). *)
Inductive top : Type := TRoot | TChild (n k : nat) | TDrop (n : nat).

(** [None]: the operation does not apply (no such node any more) or throws. *)
Definition tdo (tt : bool) (s : tstate) (o : top) : option tstate :=
  match o with
  | TRoot => Some (mkTs (theap s ++ [mkTn 0 []]) (length (theap s) :: troots s) (ttab s))
  | TChild n k =>
      match nth_error (theap s) n with
      | Some x => if exists_still s n
                  then match create_child tt s n x k with Made _ s' => Some s' | BadWeakPtr => None end
                  else None
      | None => None
      end
  | TDrop n => Some (mkTs (theap s) (filter (fun m => negb (m =? n)) (troots s)) (ttab s))
  end.

Fixpoint thist (tt : bool) (s : tstate) (l : list top) : option tstate :=
  match l with
  | [] => Some s
  | o :: l' => match tdo tt s o with Some s' => thist tt s' l' | None => None end
  end.

(** A new manager. *)
Definition tnew : tstate := mkTs [] [] [].
