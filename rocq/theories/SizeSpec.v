(** Specification vocabulary for the size of the search tree (C94). *)
From Coq Require Import List ZArith Bool.
From Verif Require Import Base EngineModel ReachSpec.
Import ListNotations.

Section Spec.
Context {S A : Type}.
Variable C : @econf S A.

(** Where a route from [s] ends. *)
Fixpoint end_of (s : S) (p : list (A * S)) : S := match p with [] => s | (_, o) :: r => end_of o r end.
(** All pairs of a route of fewer than [k] steps from [s] and an action that can follow it. *)
Fixpoint choices (k : nat) (s : S) : list (list (A * S) * A) :=
  match k with
  | 0%nat => []
  | Datatypes.S k1 => if is_sink C s then [] else
      map (pair []) (acts C s) ++
      flat_map (fun a => flat_map (fun o => map (fun c => ((a, o) :: fst c, snd c)) (choices k1 o)) (succs C s a)) (acts C s)
  end.
(** No action or outcome is listed twice. *)
Definition no_repeats : Prop := forall s, NoDup (acts C s) /\ forall a, NoDup (succs C s a).
(** How many routes there are with [w] continuations of each route: 1 + w + ... + w^k. *)
Fixpoint geometric (w k : nat) : nat := match k with 0%nat => 1 | Datatypes.S k1 => 1 + w * geometric w k1 end.
(** The number of steps that trials make. *)
Definition horizon : nat := Z.to_nat (max_depth C).
End Spec.
