(* What the claims about locking say. *)
From Coq Require Import List Arith Bool Permutation.
From Verif Require Import LockModel.
Import ListNotations.

(** A state some schedule leads to. *)
Definition lreach (C : lconf) (s : lstate) : Prop := exists ls, lrun C linit ls = Some s.

(** Thread [t] cannot go on before thread [u] has released a mutex. *)
Definition waits (s : lstate) (t u : nat) : Prop :=
  exists l rest, todo s t = ILock l :: rest /\ owner s l = Some u.

(** A deadlock: some threads, each of which waits for another one of them (or for itself). *)
Definition deadlock (s : lstate) : Prop :=
  exists D : list nat, D <> [] /\ forall t, In t D -> exists u, In u D /\ waits s t u.

(** Waiting directly or through others. *)
Inductive waits_star (s : lstate) : nat -> nat -> Prop :=
| ws_here t : waits_star s t t
| ws_more t u v : waits s t u -> waits_star s u v -> waits_star s t v.

(** Thread [t] has something to do and can do it now. *)
Definition can_go (C : lconf) (s : lstate) (t : nat) : Prop :=
  todo s t <> [] /\ forall k r, exists s', lstep C s (LGo t k r) = Some s'.

(** Thread [t] is inside an operation on the transposition table: its next operation is the look-up and insertion. *)
Definition in_table (s : lstate) (t : nat) : Prop := exists n k rest, todo s t = ITouch n k :: rest.

(** Thread [t] is about to lock a table mutex that does not exist. *)
Definition no_such_mutex (C : lconf) (s : lstate) (t : nat) : Prop :=
  exists i rest, todo s t = ILock (LTable i) :: rest /\ l_mutexes C <= i.

(** The maps may list their elements in any order, but list exactly their elements. *)
Definition reorders (C : lconf) : Prop := forall r l, Permutation (l_reorder C r l) l.

(** No method of a chance node locks all its children. *)
Definition chance_keeps_off (C : lconf) : Prop := forall body, In body (l_bodies C true) -> ~ In AAll body.
