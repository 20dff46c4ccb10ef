(* What the claim about data races says. *)
From Coq Require Import List Arith Bool Permutation.
From Verif Require Import LockModel AccessModel.
Import ListNotations.

(** A state some schedule of a search leads to. *)
Definition areach (A : aconf) (s : astate) : Prop := exists ls, arun A ainit ls = Some s.

(** The accesses of one step (true: a write). Operations on all children or one child start by looking at the node's own
    map of children; creating a child changes that map, and the table if it is used. *)
Definition accesses (i : ainstr) : list (bool * data) :=
  match i with
  | Access w d => [(w, d)]
  | Peek n | Do (IAll n) | Do (IOne n) => [(false, DNode n)]
  | Do (IGrow n) => [(true, DNode n)]
  | Do (ITouch n _) => [(true, DNode n); (true, DTable)]
  | Do (ILock _) | Do (IUnlock _) => []
  end.

(** The next step of thread t accesses d (and writes it, if w). *)
Definition about_to (s : astate) (t : nat) (w : bool) (d : data) : Prop :=
  exists i rest, atodo s t = i :: rest /\ In (w, d) (accesses i).

(** A data race: two threads may access the same data next, in either order, and at least one of them writes it. *)
Definition race (s : astate) (d : data) : Prop :=
  exists t u w w', t <> u /\ about_to s t w d /\ about_to s u w' d /\ (w = true \/ w' = true).

(** The maps may list their elements in any order, but list exactly their elements. *)
Definition areorders (A : aconf) : Prop := forall r l, Permutation (a_reorder A r l) l.

(** No method reads children that it has not locked. *)
Definition locks_children (A : aconf) : Prop := forall c body, In body (a_bodies A c) -> ~ In PeekKids body.
