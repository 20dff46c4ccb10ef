(* What the claims about ownership say. *)
From Coq Require Import List Arith.
From Verif Require Import RcModel.
Import ListNotations.

(** Not destroyed. *)
Definition exists_now (s : rstate) (x : nat) : Prop := exists o, nth_error (heap s) x = Some o /\ uses o <> 0.

(** Still wanted: somebody outside has a pointer to it, or it is a child or the manager of a node that is still wanted. *)
Inductive wanted (s : rstate) : nat -> Prop :=
| wanted_hand x : In x (hands s) -> wanted s x
| wanted_kid n lev m kids u k c : wanted s n -> nth_error (heap s) n = Some (mkO (Node lev m kids) u) -> In (k, c) kids -> wanted s c
| wanted_mgr n lev m kids u : wanted s n -> nth_error (heap s) n = Some (mkO (Node lev m kids) u) -> wanted s m.

(** No node is deeper than [L]. In a search with maximal depth D no node is deeper than 2 * D (C12). *)
Definition no_deeper (L : nat) (s : rstate) : Prop :=
  forall x lev m kids u, nth_error (heap s) x = Some (mkO (Node lev m kids) u) -> lev <= L.
