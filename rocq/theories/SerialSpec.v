(* What the claim about whole sections says. *)
From Coq Require Import List Arith Bool.
From Verif Require Import SerialModel.
Import ListNotations.

Section Spec.
Context {V L T : Type}.

(** Parts that concern only the section's own node and new nodes. *)
Definition local (m : micro V L T) : Prop :=
  match m with Own _ | New _ => True | Look _ _ | Table _ => False end.

(** A section that looks at other nodes or at the table at most once, and creates nodes not before that. *)
Inductive looks_once : list (micro V L T) -> Prop :=
| lo_own f p : looks_once p -> looks_once (Own f :: p)
| lo_here m p : Forall local p -> looks_once (m :: p).

(** No thread is inside a section. *)
Definition between (s : cst V L T) : Prop := forall t, code (thrs s t) = [].

(** The same nodes with the same contents, the same table, and threads that have seen the same. *)
Definition same (s : cst V L T) (a : sst V L T) : Prop :=
  (forall x, heap s x = sheap a x) /\ tab s = stab a /\ (forall t, loc (thrs s t) = sloc a t) /\ (forall t, cnt (thrs s t) = scnt a t).

(** The addresses a thread gives to new nodes are not in use. *)
Definition unused (h : addr -> option V) (ks : nat -> nat) : Prop := forall t k, ks t <= k -> h (t, k) = None.
End Spec.

(** A program with the structure of a section listed in AccessModel.v: drawing a random number is an operation on local
    variables here; a chance node creates children with or without the table. *)
From Verif Require Import LockModel AccessModel.
Definition fit {V L T : Type} (chance : bool) (a : mact) (m : micro V L T) : Prop :=
  match a, m with
  | AccessModel.Own _, SerialModel.Own _ => True
  | With ARng, SerialModel.Own _ => True
  | With AAll, Look _ _ | With AOne, Look _ _ => True
  | With AGrow, New _ => True
  | With AGrow, Table _ => chance = true
  | _, _ => False
  end.
Definition has_structure {V L T : Type} (bodies : bool -> list (list mact)) (p : list (micro V L T)) : Prop :=
  exists chance body, In body (bodies chance) /\ Forall2 (fit chance) body p.
