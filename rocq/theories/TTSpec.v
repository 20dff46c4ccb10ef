(* What the claims about the reuse of a manager say. *)
From Coq Require Import List.
From Verif Require Import TTModel.
Import ListNotations.

(** Still owned: a root somebody holds, or a child of a node that is still owned. *)
Inductive owned (h : list tnode) (roots : list nat) : nat -> Prop :=
| ow_root n : In n roots -> owned h roots n
| ow_kid n x c : owned h roots n -> nth_error h n = Some x -> In c (map snd (tkids x)) -> owned h roots c.

(** A node somebody can use. *)
Definition alive (s : tstate) (n : nat) : Prop := owned (theap s) (troots s) n.

(** No tree is given up in a history. *)
Definition keeps_trees (l : list top) : Prop := forall n, ~ In (TDrop n) l.
